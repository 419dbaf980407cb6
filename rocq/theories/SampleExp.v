(** Reasoning about expectations; generalised multilinearity of circuits. *)
From Coq Require Import List Arith Bool Lia Lra Permutation.
From Coquelicot Require Import Coquelicot.
From Verif Require Import Base ScopeModel ScopeProofs CircuitModel CircuitBasics CircuitEval Integral CircuitMarg SampleModel SampleSpec.
Import ListNotations.
Local Open Scope R_scope.

Lemma expects_ext {A} D (p : prog A) g g' u : (forall a, outcome p a -> g a = g' a) -> expects D p g u -> expects D p g' u.
Proof.
  revert u. induction p as [a| |n w k IH|l f c r k IH]; intros u E H; cbn in *.
  - rewrite <- E; [assumption|constructor].
  - exact H.
  - destruct H as (hh & H1 & H2). exists hh. split; [|assumption]. intros i Hi Hw.
    apply IH; [intros; apply E; econstructor; eauto|auto].
  - destruct H as (hh & H1 & H2). exists hh. split; [|assumption]. intros a.
    apply IH; [intros; apply E; econstructor; eauto|auto].
Qed.

Lemma expects_bind {A B} D (p : prog A) (q : A -> prog B) g u2 u :
  expects D p u2 u -> (forall a, outcome p a -> expects D (q a) g (u2 a)) -> expects D (pbind p q) g u.
Proof.
  revert u. induction p as [a| |n w k IH|l f c r k IH]; intros u H E; cbn in *.
  - rewrite <- H. apply E. constructor.
  - exact H.
  - destruct H as (hh & H1 & H2). exists hh. split; [|assumption]. intros i Hi Hw.
    apply IH; [auto|]. intros a Ha. apply E. econstructor; eauto.
  - destruct H as (hh & H1 & H2). exists hh. split; [|assumption]. intros a.
    apply IH; [auto|]. intros b Hb. apply E. econstructor; eauto.
Qed.

Lemma outcome_bind {A B} (p : prog A) (q : A -> prog B) b :
  outcome (pbind p q) b -> exists a, outcome p a /\ outcome (q a) b.
Proof.
  induction p as [a| |n w k IH|l f c r k IH]; cbn; intros H.
  - exists a. split; [constructor|assumption].
  - inversion H.
  - inversion H as [|? ? ? i ? Hi Hw Ho|]; subst. destruct (IH i Ho) as (a & Ha & Hb).
    exists a. split; [econstructor; eauto|assumption].
  - inversion H as [| |? ? ? ? ? a ? Ho]; subst. destruct (IH a Ho) as (b' & Ha & Hb).
    exists b'. split; [econstructor; eauto|assumption].
Qed.

Lemma pbind_ext {A B} (p : prog A) (q q' : A -> prog B) : (forall a, q a = q' a) -> pbind p q = pbind p q'.
Proof. intros E. replace q' with q; [reflexivity|]. apply functional_extensionality, E. Qed.

(** an expectation exists only if no exception is possible *)
Lemma expects_no_raise {A} D (p : prog A) g u : expects D p g u -> ~ may_raise p.
Proof.
  revert u. induction p as [a| |n w k IH|l f c r k IH]; intros u H C; cbn in H.
  - inversion C.
  - exact H.
  - inversion C as [|? ? ? i Hi Hw Hr|]; subst. destruct H as (hh & Hh & _). exact (IH i _ (Hh i Hi Hw) Hr).
  - inversion C as [| |? ? ? ? ? a Hr]; subst. destruct H as (hh & Hh & _). exact (IH a _ (Hh a) Hr).
Qed.

(** *** lprod *)
Lemma lprod_ext {A} (l : list A) f g : (forall a, In a l -> f a = g a) -> lprod l f = lprod l g.
Proof. induction l as [|a l IH]; cbn; intros H; [reflexivity|]. rewrite H, IH; auto. Qed.

Lemma lprod_app {A} (l1 l2 : list A) f : lprod (l1 ++ l2) f = lprod l1 f * lprod l2 f.
Proof. induction l1 as [|a l1 IH]; cbn; [ring|]. rewrite IH. ring. Qed.

Lemma lprod_perm {A} (l1 l2 : list A) f : Permutation l1 l2 -> lprod l1 f = lprod l2 f.
Proof. induction 1; cbn; try congruence; ring. Qed.

Lemma lprod_concat (ls : list (list nat)) f : lprod (concat ls) f = bprod (length ls) (fun i => lprod (nth i ls []) f).
Proof.
  induction ls as [|l ls IH]; [reflexivity|].
  cbn [concat length]. rewrite lprod_app, bprod_S_first, IH. reflexivity.
Qed.

Lemma lprod_filter {A} (l : list A) (b : A -> bool) f :
  lprod (filter b l) f = lprod l (fun a => if b a then f a else 1).
Proof. induction l as [|a l IH]; cbn; [reflexivity|]. destruct (b a); cbn; rewrite IH; ring. Qed.

Lemma lprod_nonneg {A} (l : list A) f : (forall a, In a l -> 0 <= f a) -> 0 <= lprod l f.
Proof.
  induction l as [|a l IH]; cbn; intros H; [lra|]. apply Rmult_le_pos; [apply H; auto|apply IH; auto].
Qed.

(** *** sums of non-negative functions are non-negative *)
Lemma sums_nonneg d g u : (forall a, 0 <= g a) -> sums d g u -> 0 <= u.
Proof.
  intros Hg. destruct d as [l| |]; cbn [sums].
  - intros <-. apply lsumR_map_nonneg. auto.
  - intros H. rewrite infinite_sum_is_series in H.
    assert (is_lim_seq (sum_n (fun n => g (INR n))) u) as L by exact H.
    assert (Rbar_le 0 u) as Le; [|exact Le].
    apply (is_lim_seq_le (fun _ => 0) (sum_n (fun n => g (INR n))) 0 u); [|apply is_lim_seq_const|exact L].
    intros n. induction n as [|n IH]; [rewrite sum_O; apply Hg|]. rewrite sum_Sn. specialize (Hg (INR (S n))).
    change (0 <= sum_n (fun n => g (INR n)) n + g (INR (S n))). apply Rplus_le_le_0_compat; assumption.
  - intros H. destruct (Rle_lt_dec 0 u) as [|Hu]; [assumption|exfalso].
    specialize (H (fun y => y < 0)). unfold filtermapi in H.
    assert (locally u (fun y : R => y < 0)) as Lo by (apply (open_lt 0); exact Hu).
    specialize (H Lo). destruct H as [Qa Qb Ha Hb HQ].
    destruct Ha as (Ma & Ha). destruct Hb as (Mb & Hb).
    destruct (HQ (Rmin (Ma - 1) (Mb - 1)) (Rmax (Mb + 1) (Ma + 1))) as (y & Hy & Hneg).
    + apply Ha. pose proof (Rmin_l (Ma - 1) (Mb - 1)). lra.
    + apply Hb. pose proof (Rmax_l (Mb + 1) (Ma + 1)). lra.
    + cbn [fst snd] in Hy.
      assert (0 <= y); [|lra].
      pose proof (Rmin_r (Ma - 1) (Mb - 1)). pose proof (Rmax_l (Mb + 1) (Ma + 1)).
      eapply is_RInt_ge_0; [|exact Hy|]; [lra|]. intros; apply Hg.
Qed.

(** *** Locality and multilinearity for arbitrary leaf scores *)
Definition colv (l : leaf) (f : nat) : nat := nth f (query (l_scope l)) 0%nat.

Lemma pev_local s s' m : wf m -> aligned m -> forall f c r, pos m f c r ->
  (forall l g c r, In l (leaves_of m) -> In (colv l g) (nthq m f) -> s l g c r = s' l g c r) -> pev s m f c r = pev s' m f c r.
Proof.
  intros W A f c r P. revert f c r P.
  apply (pos_induction (fun m f c r => (forall l g c r, In l (leaves_of m) -> In (colv l g) (nthq m f) -> s l g c r = s' l g c r) ->
     pev s m f c r = pev s' m f c r)); auto.
  - intros l f c r Hok Hf Hc Hr H. unfold pev. cbn [evalm].
    rewrite (H l); [reflexivity|now left|]. rewrite nthq_leaf by assumption. now left.
  - intros ch co rr lg f c r W0 A0 HP IH H. cbn in W0. destruct W0 as [W0 _].
    pose proof (wf_cpos ch (wf_wf1 ch W0)). rewrite !pev_sum by assumption.
    apply bsum_ext. intros ci Hci. f_equal. apply (IH ci Hci). exact H.
  - intros sc pre ch post g c r _ _ HP W0 A0 _ EN IH H. rewrite !pev_cat1 by apply HP.
    apply IH. rewrite <- EN. intros l g' c' r' Hl. apply H. rewrite leaves_cat. apply in_concat.
    exists (leaves_of ch). split; [|assumption]. apply in_map. apply in_elt.
  - intros sc pre ch post f k r _ _ HP W0 A0 _ EN IH H. rewrite !pev_cat2 by apply HP.
    apply IH. rewrite <- EN. intros l g' c' r' Hl. apply H. rewrite leaves_cat. apply in_concat.
    exists (leaves_of ch). split; [|assumption]. apply in_map. apply in_elt.
  - intros ch c r W0 A0 HP IH H. rewrite !pev_product. apply bprod_ext. intros f Hf.
    apply (IH f Hf). intros l g c' r' Hl Hv. apply H; [exact Hl|]. apply nthq_product; eauto.
Qed.

Definition leaf_range (l : leaf) (f c r : nat) : Prop :=
  (f < length (query (l_scope l)))%nat /\ (c < l_ch l)%nat /\ (r < l_rep l)%nat.

Lemma lin1 D m (v : nat) (sa : R -> leaf -> nat -> nat -> nat -> lval) (s0 : leaf -> nat -> nat -> nat -> lval) :
  wf m -> aligned m ->
  (forall l f c r a, colv l f <> v -> sa a l f c r = s0 l f c r) ->
  forall f c r, pos m f c r ->
  (forall l f c r, In l (leaves_of m) -> leaf_range l f c r -> colv l f = v ->
     sums (D v) (fun a => pr (sa a l f c r)) (pr (s0 l f c r))) ->
  In v (nthq m f) ->
  sums (D v) (fun a => pev (sa a) m f c r) (pev s0 m f c r).
Proof.
  intros W A Hoff f c r P. revert f c r P.
  apply (pos_induction (fun m f c r =>
    (forall l f c r, In l (leaves_of m) -> leaf_range l f c r -> colv l f = v ->
     sums (D v) (fun a => pr (sa a l f c r)) (pr (s0 l f c r))) ->
    In v (nthq m f) -> sums (D v) (fun a => pev (sa a) m f c r) (pev s0 m f c r))); auto.
  - intros l f c r Hok Hf Hc Hr N Hv. rewrite nthq_leaf in Hv by assumption. destruct Hv as [Hv|[]].
    unfold pev. cbn [evalm]. apply N; [now left|repeat split; assumption|exact Hv].
  - intros ch co rr lg f c r W0 A0 HP IH N Hv. cbn in W0. destruct W0 as [W0 _].
    pose proof (wf_cpos ch (wf_wf1 ch W0)) as Cp. rewrite pev_sum by assumption.
    eapply sums_ext; [intros a; symmetry; apply pev_sum; assumption|].
    destruct (IH 0%nat Cp) as [_ IH0].
    eapply sums_bsum; [exact (IH0 N Hv)|].
    intros ci Hci. apply sums_scal. apply (IH ci Hci); auto.
  - intros sc pre ch post g c r _ _ HP W0 A0 _ EN IH N Hv. rewrite pev_cat1 by apply HP.
    eapply sums_ext; [intros a; symmetry; apply pev_cat1; apply HP|].
    apply IH; [|now rewrite <- EN]. intros l f' c' r' Hl. apply N. rewrite leaves_cat. apply in_concat.
    exists (leaves_of ch). split; [|assumption]. apply in_map. apply in_elt.
  - intros sc pre ch post f k r _ _ HP W0 A0 _ EN IH N Hv. rewrite pev_cat2 by apply HP.
    eapply sums_ext; [intros a; symmetry; apply pev_cat2; apply HP|].
    apply IH; [|now rewrite <- EN]. intros l f' c' r' Hl. apply N. rewrite leaves_cat. apply in_concat.
    exists (leaves_of ch). split; [|assumption]. apply in_map. apply in_elt.
  - intros ch c r W0 A0 HP IH N Hv. apply nthq_product in Hv; [|assumption].
    destruct Hv as (f & Hf & Hv). rewrite pev_product, (bprod_isolate _ _ f Hf).
    eapply sums_ext; [intros a; symmetry; rewrite pev_product, (bprod_isolate _ _ f Hf); reflexivity|].
    destruct (IH f Hf) as [P1 IH1]. specialize (IH1 N Hv).
    set (K := bprod (features (out_shape ch)) (fun i => if Nat.eqb i f then 1 else pev s0 ch i c r)).
    rewrite Rmult_comm. eapply sums_ext; [|apply (sums_scal (D v) K _ _ IH1)].
    intros a. cbn beta. rewrite Rmult_comm. f_equal. apply bprod_ext. intros i Hi.
    destruct (Nat.eqb_spec i f) as [->|Hn]; [reflexivity|].
    destruct (IH i Hi) as [Pi _]. symmetry. apply (pev_local _ _ ch W0 A0 i c r Pi).
    intros l g c' r' Hl Hg. apply Hoff. intros E. rewrite E in Hg.
    apply (wf_disj ch (wf_wf1 ch W0) i f Hi Hf Hn _ Hg Hv).
Qed.

Lemma sums_over_ext D vs g g' : forall x u, NoDup vs ->
  (forall y, (forall v, In v vs -> y v <> None) -> (forall v, ~ In v vs -> y v = x v) -> g y = g' y) ->
  sums_over D vs g x u -> sums_over D vs g' x u.
Proof.
  induction vs as [|v vs IH]; intros x u ND E H; cbn [sums_over] in *.
  - rewrite <- E; [assumption|intros ? []|reflexivity].
  - inversion ND as [|? ? Hv ND']; subst.
    destruct H as (hh & H1 & H2). exists hh. split; [|assumption]. intros a. apply IH; auto.
    intros y Y1 Y2. apply E.
    + intros w [<-|Hw]; [|auto]. rewrite Y2 by assumption. rewrite upd_same. discriminate.
    + intros w Hw. rewrite Y2; [|intros C; apply Hw; now right]. apply upd_other. intros ->. apply Hw. now left.
Qed.
