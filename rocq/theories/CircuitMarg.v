(** Locality, normalisation and marginalisation by missing values. *)
From Coq Require Import List Arith Bool Lia Lra.
From Verif Require Import Base ScopeModel ScopeProofs CircuitModel CircuitBasics CircuitEval Integral.
Import ListNotations.
Local Open Scope R_scope.

Lemma prob_pev m x f c r : prob m x f c r = pev (leaf_score x) m f c r.
Proof. reflexivity. Qed.

Lemma nthq_leaf l f : (f < length (query (l_scope l)))%nat -> nthq (MLeaf l) f = [nth f (query (l_scope l)) 0%nat].
Proof.
  intros Hf. unfold nthq. cbn [fts].
  rewrite nth_indep with (d' := (fun v => [v]) 0%nat) by now rewrite map_length.
  now rewrite map_nth with (f := fun v => [v]).
Qed.

Lemma nthq_product m v : wf m ->
  In v (nthq (MProduct m) 0) <-> exists f, (f < features (out_shape m))%nat /\ In v (nthq m f).
Proof.
  intros W. pose proof (wf_len m (wf_wf1 m W)) as L. unfold nthq at 1. cbn [fts nth].
  rewrite pjoin_In. split.
  - intros (q & Hq & Hv). apply In_nth with (d := []) in Hq. destruct Hq as (f & Hf & <-).
    exists f. split; [lia|assumption].
  - intros (f & Hf & Hv). exists (nthq m f). split; [|assumption]. apply nth_In. lia.
Qed.

(** Locality, per output feature (aligned circuits). *)
Lemma prob_local m : wf m -> aligned m -> forall f c r, pos m f c r ->
  forall x y, (forall v, In v (nthq m f) -> x v = y v) -> prob m x f c r = prob m y f c r.
Proof.
  intros W A f c r P. revert f c r P.
  apply (pos_induction (fun m f c r => forall x y, (forall v, In v (nthq m f) -> x v = y v) -> prob m x f c r = prob m y f c r)); auto.
  - intros l f c r Hok Hf Hc Hr x y H. unfold prob, loglik. cbn [evalm]. unfold leaf_score.
    rewrite H; [reflexivity|]. rewrite nthq_leaf by assumption. now left.
  - intros ch co rr lg f c r W0 A0 HP IH x y H. rewrite !prob_pev. cbn in W0. destruct W0 as [W0 _].
    pose proof (wf_cpos ch (wf_wf1 ch W0)). rewrite !pev_sum by assumption.
    apply bsum_ext. intros ci Hci. f_equal. apply (IH ci Hci). exact H.
  - intros sc pre ch post g c r _ _ HP W0 A0 _ EN IH x y H. rewrite !prob_pev, !pev_cat1 by apply HP.
    apply IH. rewrite <- EN. exact H.
  - intros sc pre ch post f k r _ _ HP W0 A0 _ EN IH x y H. rewrite !prob_pev, !pev_cat2 by apply HP.
    apply IH. rewrite <- EN. exact H.
  - intros ch c r W0 A0 HP IH x y H. rewrite !prob_pev, !pev_product. apply bprod_ext. intros f Hf.
    apply (IH f Hf). intros v Hv. apply H. apply nthq_product; eauto.
Qed.

(** Locality in the whole scope (no alignment needed). *)
Lemma evalm_scope_local m : wf m -> forall f c r, (f < features (out_shape m))%nat ->
  forall x y, (forall v, In v (query (scope_of m)) -> x v = y v) -> loglik m x f c r = loglik m y f c r.
Proof.
  unfold loglik.
  induction m as [l|ch co rr lg IH|d2 sc cs IH|ch IH] using module_ind'; intros W f c r Hf x y H.
  - cbn. unfold leaf_score. rewrite H; [reflexivity|]. cbn. apply nth_In. exact Hf.
  - cbn [evalm]. cbn in W. apply lse_ext. intros ci Hci. f_equal. apply IH; [tauto|exact Hf|exact H].
  - pose proof (wf_cat_children _ _ _ W) as Wc. rewrite Forall_forall in IH, Wc.
    pose proof W as W'. cbn in W'. destruct W' as (Hne & _ & W').
    destruct d2.
    + destruct W' as (HF & Heq & Hsc). cbn [evalm].
      assert (forall ch, In ch cs -> evalm (leaf_score x) ch f = evalm (leaf_score y) ch f) as E.
      { intros ch Hin. apply functional_extensionality; intros c'. apply functional_extensionality; intros r'.
        apply IH; auto.
        - rewrite Forall_forall in HF. rewrite (HF ch Hin). clear - Hf Hne. destruct cs; [congruence|exact Hf].
        - intros v Hv. apply H. cbn. rewrite Hsc.
          assert (In (hd (MCat true sc []) cs) cs) as Hh by (clear - Hne; destruct cs; [congruence|now left]).
          specialize (Heq ch _ Hin Hh). apply scope_eqb_spec in Heq. apply Heq. exact Hv. }
      clear - E. revert c. induction cs as [|ch cs IHc]; intros c; [reflexivity|].
      cbn. rewrite (E ch) by now left. destruct (Nat.ltb c (channels (out_shape ch))); [reflexivity|].
      apply IHc. intros; apply E; now right.
    + destruct W' as (HF & HD & Hv & HU). cbn [evalm].
      rewrite out_shape_cat1 in Hf. apply cat1_locate in Hf.
      destruct Hf as (pre & ch & post & g & E & Hg & ->). subst cs.
      rewrite !catpick_locate1 by assumption.
      assert (In ch (pre ++ ch :: post)) as Hin by apply in_elt.
      apply IH; auto. intros v Hq. apply H. cbn. apply HU. eauto.
  - cbn [evalm]. cbn in W. apply ladds_ext. intros f' Hf'. apply IH; auto.
Qed.

(** A leaf is normalised when each of its univariate densities is. *)
Definition leaf_norm (D : nat -> domain) (l : leaf) : Prop :=
  forall f c r, (f < length (query (l_scope l)))%nat -> (c < l_ch l)%nat -> (r < l_rep l)%nat ->
    sums (D (nth f (query (l_scope l)) 0%nat)) (fun a => pr (l_lp l f c r a)) 1.

Fixpoint leaves_of (m : module) : list leaf :=
  match m with
  | MLeaf l => [l]
  | MSum c _ _ _ => leaves_of c
  | MCat _ _ cs => (fix go (l : list module) : list leaf := match l with [] => [] | c :: r => leaves_of c ++ go r end) cs
  | MProduct c => leaves_of c
  end.

Definition leaves_norm D m := Forall (leaf_norm D) (leaves_of m).

Lemma leaves_cat d2 sc cs : leaves_of (MCat d2 sc cs) = concat (map leaves_of cs).
Proof. cbn. induction cs as [|c cs IH]; [reflexivity|]. cbn. now rewrite IH. Qed.

Lemma leaves_norm_cat D d2 sc pre ch post : leaves_norm D (MCat d2 sc (pre ++ ch :: post)) -> leaves_norm D ch.
Proof.
  unfold leaves_norm. rewrite leaves_cat, map_app, concat_app. cbn.
  rewrite !Forall_app. tauto.
Qed.

(** Marginalising one variable. *)
Lemma marg1 D m : wf m -> aligned m -> leaves_norm D m -> forall f c r, pos m f c r ->
  forall x v, In v (nthq m f) ->
  sums (D v) (fun a => prob m (upd x v (Some a)) f c r) (prob m (upd x v None) f c r).
Proof.
  intros W A N f c r P. revert N. revert f c r P.
  apply (pos_induction (fun m f c r => leaves_norm D m -> forall x v, In v (nthq m f) ->
    sums (D v) (fun a => prob m (upd x v (Some a)) f c r) (prob m (upd x v None) f c r))); auto.
  - intros l f c r Hok Hf Hc Hr N x v Hv. rewrite nthq_leaf in Hv by assumption. destruct Hv as [<-|[]].
    unfold prob, loglik. cbn [evalm]. unfold leaf_score. rewrite upd_same, pr_Fin0.
    apply sums_ext with (f := fun a => pr (l_lp l f c r a)); [intros; now rewrite upd_same|].
    inversion N as [|? ? N1 _]; subst. now apply N1.
  - intros ch co rr lg f c r W0 A0 HP IH N x v Hv. cbn in W0. destruct W0 as [W0 _].
    pose proof (wf_cpos ch (wf_wf1 ch W0)) as Cp. rewrite prob_pev, pev_sum by assumption.
    eapply sums_ext; [intros a; symmetry; rewrite prob_pev, pev_sum by assumption; reflexivity|].
    destruct (IH 0%nat Cp) as [_ IH0]. 
    eapply sums_bsum; [exact (IH0 N x v Hv)|].
    intros ci Hci. apply sums_scal. apply (IH ci Hci); auto.
  - intros sc pre ch post g c r _ _ HP W0 A0 _ EN IH N x v Hv. rewrite prob_pev, pev_cat1 by apply HP.
    eapply sums_ext; [intros a; symmetry; rewrite prob_pev, pev_cat1 by apply HP; reflexivity|].
    apply IH; [eapply leaves_norm_cat; eauto|now rewrite <- EN].
  - intros sc pre ch post f k r _ _ HP W0 A0 _ EN IH N x v Hv. rewrite prob_pev, pev_cat2 by apply HP.
    eapply sums_ext; [intros a; symmetry; rewrite prob_pev, pev_cat2 by apply HP; reflexivity|].
    apply IH; [eapply leaves_norm_cat; eauto|now rewrite <- EN].
  - intros ch c r W0 A0 HP IH N x v Hv. apply nthq_product in Hv; [|assumption].
    destruct Hv as (f & Hf & Hv). rewrite prob_pev, pev_product, (bprod_isolate _ _ f Hf).
    eapply sums_ext; [intros a; symmetry; rewrite prob_pev, pev_product, (bprod_isolate _ _ f Hf); reflexivity|].
    destruct (IH f Hf) as [P1 IH1]. specialize (IH1 N x v Hv).
    set (K := bprod (features (out_shape ch)) (fun i => if Nat.eqb i f then 1 else pev (leaf_score (upd x v None)) ch i c r)).
    rewrite Rmult_comm. eapply sums_ext; [|apply (sums_scal (D v) K _ _ IH1)].
    intros a. cbn beta. rewrite Rmult_comm. f_equal. apply bprod_ext. intros i Hi.
    destruct (Nat.eqb_spec i f) as [->|Hn]; [reflexivity|].
    destruct (IH i Hi) as [Pi _]. apply (prob_local ch W0 A0 i c r Pi).
    intros u Hu. rewrite !upd_other; auto; intros ->;
      apply (wf_disj ch (wf_wf1 ch W0) i f Hi Hf Hn _ Hu Hv).
Qed.

(** All of the output feature's variables missing: probability one. *)
Lemma prob_all_nan m : wf m -> aligned m -> forall f c r, pos m f c r ->
  forall x, (forall v, In v (nthq m f) -> x v = None) -> prob m x f c r = 1.
Proof.
  intros W A f c r P. revert f c r P.
  apply (pos_induction (fun m f c r => forall x, (forall v, In v (nthq m f) -> x v = None) -> prob m x f c r = 1)); auto.
  - intros l f c r Hok Hf Hc Hr x H. unfold prob, loglik. cbn [evalm]. unfold leaf_score.
    rewrite H; [apply pr_Fin0|]. rewrite nthq_leaf by assumption. now left.
  - intros ch co rr lg f c r W0 A0 HP IH x H. cbn in W0. destruct W0 as [W0 _].
    pose proof (wf_cpos ch (wf_wf1 ch W0)) as Cp. rewrite prob_pev, pev_sum by assumption.
    rewrite <- (softmax_sum (channels (out_shape ch)) (fun i => lg f i c (bidx rr r)) Cp).
    apply bsum_ext. intros ci Hci. rewrite <- prob_pev. destruct (IH ci Hci) as [_ IH1].
    rewrite IH1 by exact H. ring.
  - intros sc pre ch post g c r _ _ HP W0 A0 _ EN IH x H. rewrite prob_pev, pev_cat1 by apply HP.
    apply IH. now rewrite <- EN.
  - intros sc pre ch post f k r _ _ HP W0 A0 _ EN IH x H. rewrite prob_pev, pev_cat2 by apply HP.
    apply IH. now rewrite <- EN.
  - intros ch c r W0 A0 HP IH x H. rewrite prob_pev, pev_product. apply bprod_one. intros f Hf.
    apply (IH f Hf). intros v Hv. apply H. apply nthq_product; eauto.
Qed.

(** All of the scope missing: no alignment needed. *)
Lemma evalm_scope_nan m : wf m -> forall f c r, pos m f c r ->
  forall x, (forall v, In v (query (scope_of m)) -> x v = None) -> prob m x f c r = 1.
Proof.
  induction m as [l|ch co rr lg IH|d2 sc cs IH|ch IH] using module_ind'; intros W f c r HP x H.
  - destruct HP as (_ & Hf & _). unfold prob, loglik. cbn [evalm]. unfold leaf_score.
    rewrite H; [apply pr_Fin0|]. cbn. apply nth_In. exact Hf.
  - destruct HP as ((s & Hs) & Hf & Hc & Hr).
    cbn in W. destruct W as [W _].
    pose proof (wf_cpos ch (wf_wf1 ch W)) as Cp. rewrite prob_pev, pev_sum by assumption.
    rewrite <- (softmax_sum (channels (out_shape ch)) (fun i => lg f i c (bidx rr r)) Cp).
    apply bsum_ext. intros ci Hci. rewrite <- prob_pev. rewrite IH; [ring|assumption| |exact H].
    split; [eapply ll_shape_sum; eauto|]. cbn in Hf, Hr. repeat split; auto.
    destruct (Nat.eqb_spec (ll_reps ch) 1) as [E|E]; apply bidx_lt; lia.
  - destruct HP as ((s & Hs) & Hf & Hc & Hr).
    pose proof (wf_cat_children _ _ _ W) as Wc.
    pose proof (ll_shape_cat _ _ _ _ Wc Hs) as Hch. rewrite Forall_forall in IH, Wc.
    pose proof W as W'. cbn in W'. destruct W' as (Hne & _ & W').
    destruct d2.
    + destruct W' as (HF & Heq & Hsc).
      pose proof Hc as Hc'. rewrite out_shape_cat2 in Hc'. apply cat2_locate in Hc'.
      destruct Hc' as (pre & ch & post & k & E & Hk & ->). subst cs.
      assert (In ch (pre ++ ch :: post)) as Hin by apply in_elt.
      destruct (Hch ch Hin) as [S1 S2]. rewrite prob_pev, pev_cat2 by assumption.
      assert (features (out_shape ch) = features (out_shape (MCat true sc (pre ++ ch :: post)))) as EF.
      { rewrite Forall_forall in HF. rewrite (HF ch Hin). destruct pre; reflexivity. }
      apply IH; auto.
      * repeat split; auto; [now rewrite EF|now rewrite S2].
      * intros v Hv. apply H. cbn. rewrite Hsc.
        assert (In (hd (MCat true sc []) (pre ++ ch :: post)) (pre ++ ch :: post)) as Hh by (destruct pre; now left).
        specialize (Heq ch _ Hin Hh). apply scope_eqb_spec in Heq. apply Heq. exact Hv.
    + destruct W' as (HF & HD & Hv & HU).
      pose proof Hf as Hf'. rewrite out_shape_cat1 in Hf'. apply cat1_locate in Hf'.
      destruct Hf' as (pre & ch & post & g & E & Hg & ->). subst cs.
      assert (In ch (pre ++ ch :: post)) as Hin by apply in_elt.
      destruct (Hch ch Hin) as [S1 S2]. rewrite prob_pev, pev_cat1 by assumption.
      assert (channels (out_shape ch) = channels (out_shape (MCat false sc (pre ++ ch :: post)))) as EF.
      { rewrite Forall_forall in HF. rewrite (HF ch Hin). destruct pre; reflexivity. }
      apply IH; auto.
      * repeat split; auto; [now rewrite EF|now rewrite S2].
      * intros v Hq. apply H. cbn. apply HU. eauto.
  - destruct HP as ((s & Hs) & Hf & Hc & Hr). cbn in W, Hf, Hc, Hr. rewrite prob_pev, pev_product.
    apply bprod_one. intros f' Hf'. apply IH; auto. split; [eapply ll_shape_product; eauto|auto].
Qed.

Lemma prob_loglik_0 m x f c r : prob m x f c r = 1 -> loglik m x f c r = Fin 0.
Proof. intros H. apply pr_inj. rewrite pr_Fin0. exact H. Qed.
