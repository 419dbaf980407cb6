(** Circuits whose leaves score each cell by an arbitrary function of its value:
    locality, and summing a variable out. *)
From Coq Require Import List Arith Bool Lia Lra.
From Verif Require Import Base ScopeModel ScopeProofs CircuitModel CircuitBasics CircuitEval Integral CircuitMarg.
Import ListNotations.
Local Open Scope R_scope.

Section Cells.
  Variable M : leaf -> nat -> nat -> nat -> lval.
  Variable G : leaf -> nat -> nat -> nat -> R -> lval.

  Definition cscore (x : row) (l : leaf) (f c r : nat) : lval :=
    match x (nth f (query (l_scope l)) 0%nat) with None => M l f c r | Some a => G l f c r a end.

  Lemma cell_local m : wf m -> aligned m -> forall f c r, pos m f c r ->
    forall x y, (forall v, In v (nthq m f) -> x v = y v) -> pev (cscore x) m f c r = pev (cscore y) m f c r.
  Proof.
    intros W A f c r P. revert f c r P.
    apply (pos_induction (fun m f c r => forall x y, (forall v, In v (nthq m f) -> x v = y v) -> pev (cscore x) m f c r = pev (cscore y) m f c r)); auto.
    - intros l f c r Hok Hf Hc Hr x y H. unfold pev. cbn [evalm]. unfold cscore.
      rewrite H; [reflexivity|]. rewrite nthq_leaf by assumption. now left.
    - intros ch co rr lg f c r W0 A0 HP IH x y H. cbn in W0. destruct W0 as [W0 _].
      pose proof (wf_cpos ch (wf_wf1 ch W0)). rewrite !pev_sum by assumption.
      apply bsum_ext. intros ci Hci. f_equal. apply (IH ci Hci). exact H.
    - intros sc pre ch post g c r _ _ HP W0 A0 _ EN IH x y H. rewrite !pev_cat1 by apply HP.
      apply IH. rewrite <- EN. exact H.
    - intros sc pre ch post f k r _ _ HP W0 A0 _ EN IH x y H. rewrite !pev_cat2 by apply HP.
      apply IH. rewrite <- EN. exact H.
    - intros ch c r W0 A0 HP IH x y H. rewrite !pev_product. apply bprod_ext. intros f Hf.
      apply (IH f Hf). intros v Hv. apply H. apply nthq_product; eauto.
  Qed.

  Definition cell_sum (D : nat -> domain) (l : leaf) : Prop :=
    forall f c r, (f < length (query (l_scope l)))%nat -> (c < l_ch l)%nat -> (r < l_rep l)%nat ->
      sums (D (nth f (query (l_scope l)) 0%nat)) (fun a => pr (G l f c r a)) (pr (M l f c r)).

  Lemma Forall_leaves_cat (Q : leaf -> Prop) d2 sc pre ch post :
    Forall Q (leaves_of (MCat d2 sc (pre ++ ch :: post))) -> Forall Q (leaves_of ch).
  Proof. rewrite leaves_cat, map_app, concat_app. cbn. rewrite !Forall_app. tauto. Qed.

  Lemma cell_marg1 D m : wf m -> aligned m -> Forall (cell_sum D) (leaves_of m) -> forall f c r, pos m f c r ->
    forall x v, In v (nthq m f) ->
    sums (D v) (fun a => pev (cscore (upd x v (Some a))) m f c r) (pev (cscore (upd x v None)) m f c r).
  Proof.
    intros W A N f c r P. revert N. revert f c r P.
    apply (pos_induction (fun m f c r => Forall (cell_sum D) (leaves_of m) -> forall x v, In v (nthq m f) ->
      sums (D v) (fun a => pev (cscore (upd x v (Some a))) m f c r) (pev (cscore (upd x v None)) m f c r))); auto.
    - intros l f c r Hok Hf Hc Hr N x v Hv. rewrite nthq_leaf in Hv by assumption. destruct Hv as [<-|[]].
      unfold pev. cbn [evalm]. unfold cscore. rewrite upd_same.
      apply sums_ext with (f := fun a => pr (G l f c r a)); [intros; now rewrite upd_same|].
      inversion N as [|? ? N1 _]; subst. now apply N1.
    - intros ch co rr lg f c r W0 A0 HP IH N x v Hv. cbn in W0. destruct W0 as [W0 _].
      pose proof (wf_cpos ch (wf_wf1 ch W0)) as Cp. rewrite pev_sum by assumption.
      eapply sums_ext; [intros a; symmetry; rewrite pev_sum by assumption; reflexivity|].
      destruct (IH 0%nat Cp) as [_ IH0].
      eapply sums_bsum; [exact (IH0 N x v Hv)|].
      intros ci Hci. apply sums_scal. apply (IH ci Hci); auto.
    - intros sc pre ch post g c r _ _ HP W0 A0 _ EN IH N x v Hv. rewrite pev_cat1 by apply HP.
      eapply sums_ext; [intros a; symmetry; rewrite pev_cat1 by apply HP; reflexivity|].
      apply IH; [eapply Forall_leaves_cat; eauto|now rewrite <- EN].
    - intros sc pre ch post f k r _ _ HP W0 A0 _ EN IH N x v Hv. rewrite pev_cat2 by apply HP.
      eapply sums_ext; [intros a; symmetry; rewrite pev_cat2 by apply HP; reflexivity|].
      apply IH; [eapply Forall_leaves_cat; eauto|now rewrite <- EN].
    - intros ch c r W0 A0 HP IH N x v Hv. apply nthq_product in Hv; [|assumption].
      destruct Hv as (f & Hf & Hv). rewrite pev_product, (bprod_isolate _ _ f Hf).
      eapply sums_ext; [intros a; symmetry; rewrite pev_product, (bprod_isolate _ _ f Hf); reflexivity|].
      destruct (IH f Hf) as [P1 IH1]. specialize (IH1 N x v Hv).
      set (K := bprod (features (out_shape ch)) (fun i => if Nat.eqb i f then 1 else pev (cscore (upd x v None)) ch i c r)).
      rewrite Rmult_comm. eapply sums_ext; [|apply (sums_scal (D v) K _ _ IH1)].
      intros a. cbn beta. rewrite Rmult_comm. f_equal. apply bprod_ext. intros i Hi.
      destruct (Nat.eqb_spec i f) as [->|Hn]; [reflexivity|].
      destruct (IH i Hi) as [Pi _]. apply (cell_local ch W0 A0 i c r Pi).
      intros u Hu. rewrite !upd_other; auto; intros ->;
        apply (wf_disj ch (wf_wf1 ch W0) i f Hi Hf Hn _ Hu Hv).
  Qed.

  Lemma cell_marg D m : wf m -> aligned m -> Forall (cell_sum D) (leaves_of m) -> forall f c r, pos m f c r ->
    forall vs x, NoDup vs -> incl vs (nthq m f) ->
    sums_over D vs (fun y => pev (cscore y) m f c r) x (pev (cscore (set_nan vs x)) m f c r).
  Proof.
    intros W A N f c r P vs x ND HI.
    apply (sums_over_nan D (fun y => pev (cscore y) m f c r) (fun v => In v (nthq m f))); auto.
    intros v y Hv. now apply cell_marg1.
  Qed.
End Cells.

(** iterated sums only look at rows whose cells [vs] are filled *)
Lemma sums_over_ext D vs : NoDup vs -> forall g h x u,
  (forall y, (forall v, In v vs -> exists a, y v = Some a) -> (forall v, ~ In v vs -> y v = x v) -> g y = h y) ->
  sums_over D vs g x u -> sums_over D vs h x u.
Proof.
  induction vs as [|v vs IH]; intros ND g h x u E H; cbn in *.
  - rewrite <- E; [assumption| |]; auto. intros ? [].
  - inversion ND as [|? ? Hv ND']; subst. destruct H as (k & H1 & H2). exists k. split; [|assumption].
    intros a. apply (IH ND' g h _ _); [|apply H1].
    intros y Hall Hoff. apply E.
    + intros t [<-|Ht]; [|auto]. exists a. rewrite Hoff by assumption. apply upd_same.
    + intros t Ht. rewrite Hoff by tauto. apply upd_other. intros ->. tauto.
Qed.
