(** Every layer of a stack maps distributions to distributions. *)
From Coq Require Import List Arith Bool Reals Lia Lra.
From Verif Require Import Base ScopeModel CircuitModel CircuitSpec CircuitEval Integral CircuitMarg CircuitProps
  SampleModel EmModel SplitModel SplitProofs LayerModel LayerSpec LayerProofs FactorModel StackModel StackProofs.
Import ListNotations.
Local Open Scope R_scope.

Record dinv (D : nat -> domain) (all : list nat) (s : shape) (P : row -> nat -> nat -> nat -> R) (vs : nat -> nat -> list nat) : Prop := {
  v_nonneg : forall x f c r, in_shape s f c r -> 0 <= P x f c r;
  v_dist : forall f c r, in_shape s f c r -> is_dist D (vs f r) (fun x => lfrom (P x f c r));
  v_disj : forall f g r v, (f < features s)%nat -> (g < features s)%nat -> (r < repetitions s)%nat -> f <> g ->
             In v (vs f r) -> ~ In v (vs g r);
  v_cover : forall r v, (r < repetitions s)%nat -> (In v all <-> exists f, (f < features s)%nat /\ In v (vs f r)) }.

Definition semvars (o : op) (s : shape) (all : list nat) (vs : nat -> nat -> list nat) (f r : nat) : list nat :=
  match o with
  | OProd _ k _ => vs (in_feature k (features s / 2) 2 f 0) r ++ vs (in_feature k (features s / 2) 2 f 1) r
  | OLin _ _ _ | OEin _ _ _ _ => vs (in_feature Interleaved (features s / 2) 2 f 0) r ++ vs (in_feature Interleaved (features s / 2) 2 f 1) r
  | OSum _ _ _ => vs f r
  | OMix _ _ _ => all
  | OAll => all
  end.

Lemma pair_cover k w (vs : nat -> list nat) v :
  (exists g, (g < w * 2)%nat /\ In v (vs g)) <->
  (exists f, (f < w)%nat /\ In v (vs (in_feature k w 2 f 0) ++ vs (in_feature k w 2 f 1))).
Proof.
  split.
  - intros (g & Hg & Hv). destruct (in_feature_sur k w g Hg) as (f & i & Hf & Hi & ->). exists f. split; [exact Hf|].
    apply in_or_app. assert (i = 0 \/ i = 1)%nat as [-> | ->] by lia; auto.
  - intros (f & Hf & Hv). apply in_app_or in Hv. destruct Hv as [Hv|Hv]; eexists; (split; [|exact Hv]); apply in_feature_lt; lia.
Qed.
Lemma pair_disj k w (vs : nat -> list nat) f g v : (f < w)%nat -> (g < w)%nat -> f <> g ->
  (forall a b u, (a < w * 2)%nat -> (b < w * 2)%nat -> a <> b -> In u (vs a) -> ~ In u (vs b)) ->
  In v (vs (in_feature k w 2 f 0) ++ vs (in_feature k w 2 f 1)) ->
  ~ In v (vs (in_feature k w 2 g 0) ++ vs (in_feature k w 2 g 1)).
Proof.
  intros Hf Hg Hn Hd H1 H2.
  assert (K : forall i j, (i < 2)%nat -> (j < 2)%nat -> In v (vs (in_feature k w 2 f i)) -> In v (vs (in_feature k w 2 g j)) -> False).
  { intros i j Hi Hj A B. apply (Hd (in_feature k w 2 f i) (in_feature k w 2 g j) v); auto.
    - now apply in_feature_lt.
    - now apply in_feature_lt.
    - intros E. destruct (in_feature_inj k w f i g j Hf Hi Hg Hj E). contradiction. }
  apply in_app_or in H1. apply in_app_or in H2.
  destruct H1 as [H1|H1], H2 as [H2|H2].
  - exact (K 0%nat 0%nat ltac:(lia) ltac:(lia) H1 H2).
  - exact (K 0%nat 1%nat ltac:(lia) ltac:(lia) H1 H2).
  - exact (K 1%nat 0%nat ltac:(lia) ltac:(lia) H1 H2).
  - exact (K 1%nat 1%nat ltac:(lia) ltac:(lia) H1 H2).
Qed.

(** mixtures of products of two distributions over disjoint variables *)
Lemma pair_dist D n (w : nat -> R) (L R_ : nat -> row -> R) vl vr : (0 < n)%nat ->
  (forall k, (k < n)%nat -> 0 <= w k) -> bsum n w = 1 ->
  (forall k x, (k < n)%nat -> 0 <= L k x) -> (forall k x, (k < n)%nat -> 0 <= R_ k x) ->
  (forall k, (k < n)%nat -> is_dist D vl (fun x => lfrom (L k x))) -> (forall k, (k < n)%nat -> is_dist D vr (fun x => lfrom (R_ k x))) ->
  (forall v, In v vl -> ~ In v vr) ->
  is_dist D (vl ++ vr) (fun x => lfrom (bsum n (fun k => w k * (L k x * R_ k x)))).
Proof.
  intros Hn Hw Hs NL NR HL HR Hd.
  apply (dist_pair_mix D n w (fun k x => lfrom (L k x)) (fun k x => lfrom (R_ k x)) vl vr); auto.
  - intros v. rewrite in_app_iff. tauto.
  - intros x. rewrite pr_lfrom.
    + apply bsum_ext. intros k Hk. now rewrite !pr_lfrom by auto.
    + apply bsum_nonneg. intros k Hk. apply Rmult_le_pos; [auto|apply Rmult_le_pos; auto].
Qed.
Lemma mix_dist D n (w : nat -> R) (L : nat -> row -> R) vs : (0 < n)%nat ->
  (forall k, (k < n)%nat -> 0 <= w k) -> bsum n w = 1 ->
  (forall k x, (k < n)%nat -> 0 <= L k x) -> (forall k, (k < n)%nat -> is_dist D vs (fun x => lfrom (L k x))) ->
  is_dist D vs (fun x => lfrom (bsum n (fun k => w k * L k x))).
Proof.
  intros Hn Hw Hs NL HL. apply (dist_lse D vs n w (fun k x => lfrom (L k x))); auto.
  intros x. rewrite pr_lfrom.
  - apply bsum_ext. intros k Hk. now rewrite pr_lfrom by auto.
  - apply bsum_nonneg. intros k Hk. apply Rmult_le_pos; auto.
Qed.

Lemma sem_dinv D all o s P vs : fits o s (semsh o s) -> (match o with OMix _ _ _ => features s = 1%nat | _ => True end) ->
  dinv D all s P vs -> dinv D all (semsh o s) (fun x => sem o s (P x)) (semvars o s all vs).
Proof.
  intros (HC & HR & HF) HM [N I Dj Cv]. set (C := channels s) in *. set (Rr := repetitions s) in *.
  assert (SP : forall n l i, (0 < n)%nat -> 0 <= softmax n l i) by (intros; now apply Rlt_le, softmax_pos).
  destruct o as [outer k n|co nr lg|co nr lg|co nr lg|sc co nr lg|].
  - destruct HF as (-> & Hk & (w & Hw & EW) & _).
    assert (Dw : (features s / 2 = w)%nat) by (rewrite EW; apply Nat.div_mul; lia).
    assert (IN : forall f i c r, (f < w)%nat -> (i < 2)%nat -> (c < C)%nat -> (r < Rr)%nat -> in_shape s (in_feature k w 2 f i) c r).
    { intros f i c r A B E F. split; [|split; assumption]. rewrite EW. now apply in_feature_lt. }
    assert (DJ : forall f r, (f < w)%nat -> (r < Rr)%nat -> forall v, In v (vs (in_feature k w 2 f 0) r) -> ~ In v (vs (in_feature k w 2 f 1) r)).
    { intros f r Hf Hr v. apply Dj; try assumption; try (rewrite EW; apply in_feature_lt; lia).
      intros E. destruct (in_feature_inj k w f 0 f 1 Hf ltac:(lia) Hf ltac:(lia) E). lia. }
    assert (CV : forall r v, (r < Rr)%nat -> (In v all <-> exists f, (f < w)%nat /\ In v (vs (in_feature k w 2 f 0) r ++ vs (in_feature k w 2 f 1) r))).
    { intros r v Hr. rewrite (Cv r v Hr), EW. apply (pair_cover k w (fun f => vs f r)). }
    assert (DD : forall f g r v, (f < w)%nat -> (g < w)%nat -> (r < Rr)%nat -> f <> g ->
       In v (vs (in_feature k w 2 f 0) r ++ vs (in_feature k w 2 f 1) r) -> ~ In v (vs (in_feature k w 2 g 0) r ++ vs (in_feature k w 2 g 1) r)).
    { intros f g r v Hf Hg Hr Hn. apply (pair_disj k w (fun f => vs f r) f g v Hf Hg Hn). intros a b u Ha Hb. apply Dj; rewrite ?EW; assumption. }
    assert (PD : forall f r a b, (f < w)%nat -> (r < Rr)%nat -> (a < C)%nat -> (b < C)%nat ->
       is_dist D (vs (in_feature k w 2 f 0) r ++ vs (in_feature k w 2 f 1) r)
         (fun x => lfrom (P x (in_feature k w 2 f 0) a r * P x (in_feature k w 2 f 1) b r))).
    { intros f r a b Hf Hr Ha Hb.
      apply is_dist_ext with (g := fun x => lfrom (bsum 1 (fun _ => 1 * (P x (in_feature k w 2 f 0) a r * P x (in_feature k w 2 f 1) b r)))).
      - intros x. cbn [bsum]. f_equal. ring.
      - apply (pair_dist D 1 (fun _ => 1) (fun _ x => P x (in_feature k w 2 f 0) a r) (fun _ x => P x (in_feature k w 2 f 1) b r)).
        + lia.
        + intros; lra.
        + cbn; lra.
        + intros _ x _. apply N, IN; auto.
        + intros _ x _. apply N, IN; auto.
        + intros _ _. apply I, IN; auto.
        + intros _ _. apply I, IN; auto.
        + now apply DJ. }
    destruct outer; constructor; cbn [semsh sem semvars features channels repetitions]; rewrite ?Dw; fold C Rr.
    + intros x f c r (If & Ic & Ir). cbn [features channels repetitions] in If, Ic, Ir.
      assert (c / C < C)%nat by (apply Nat.div_lt_upper_bound; lia). assert (c mod C < C)%nat by (apply Nat.mod_upper_bound; lia).
      apply Rmult_le_pos; apply N, IN; auto.
    + intros f c r (If & Ic & Ir). cbn [features channels repetitions] in If, Ic, Ir.
      assert (c / C < C)%nat by (apply Nat.div_lt_upper_bound; lia). assert (c mod C < C)%nat by (apply Nat.mod_upper_bound; lia).
      now apply PD.
    + exact DD.
    + exact CV.
    + intros x f c r (If & Ic & Ir). cbn [features channels repetitions] in If, Ic, Ir. apply Rmult_le_pos; apply N, IN; auto.
    + intros f c r (If & Ic & Ir). cbn [features channels repetitions] in If, Ic, Ir. now apply PD.
    + exact DD.
    + exact CV.
  - subst nr. constructor; cbn [semsh sem semvars features channels repetitions]; fold C Rr.
    + intros x f c r (If & Ic & Ir). cbn [features channels repetitions] in If, Ic, Ir.
      apply bsum_nonneg. intros i Hi. apply Rmult_le_pos; [now apply SP|]. apply N. repeat split; assumption.
    + intros f c r (If & Ic & Ir). cbn [features channels repetitions] in If, Ic, Ir.
      apply (mix_dist D C (softmax C (fun j => lg f j c r)) (fun i x => P x f i r)).
      * exact HC.
      * intros; now apply SP.
      * now apply softmax_sum.
      * intros i x Hi. apply N. repeat split; assumption.
      * intros i Hi. apply I. repeat split; assumption.
    + exact Dj.
    + exact Cv.
  - destruct HF as (<- & ->). fold C. constructor; cbn [semsh sem semvars features channels repetitions]; fold C Rr.
    + intros x f c r (If & Ic & Ir). cbn [features channels repetitions] in If, Ic, Ir.
      apply bsum_nonneg. intros i Hi. apply Rmult_le_pos; [now apply SP|]. apply N. repeat split; assumption.
    + intros f c r (If & Ic & Ir). cbn [features channels repetitions] in If, Ic, Ir.
      apply (mix_dist D Rr (softmax Rr (lg f c)) (fun i x => P x f c i)).
      * exact HR.
      * intros; now apply SP.
      * now apply softmax_sum.
      * intros i x Hi. apply N. repeat split; assumption.
      * intros q Hq. apply (is_dist_equiv D (vs f q)); [|apply I; repeat split; assumption].
        intros v. rewrite (Cv q v Hq). split; [eauto|]. intros (g & Hg & Hv). replace f with g by lia. exact Hv.
    + intros f g r v Hf Hg _ Hn. lia.
    + intros r v Hr. split; [intros Hv; exists 0%nat; split; [lia|exact Hv]|]. intros (f & _ & Hv). exact Hv.
  - destruct HF as (<- & (w & Hw & EW)). fold Rr.
    assert (Dw : (features s / 2 = w)%nat) by (rewrite EW; apply Nat.div_mul; lia).
    assert (IN : forall f i c r, (f < w)%nat -> (i < 2)%nat -> (c < C)%nat -> (r < Rr)%nat -> in_shape s (in_feature Interleaved w 2 f i) c r).
    { intros f i c r A B E F. split; [|split; assumption]. rewrite EW. now apply in_feature_lt. }
    assert (E0 : forall f, (2 * f)%nat = in_feature Interleaved w 2 f 0) by (intros; cbn [in_feature]; lia).
    assert (E1 : forall f, (2 * f + 1)%nat = in_feature Interleaved w 2 f 1) by (intros; cbn [in_feature]; lia).
    constructor; cbn [semsh sem semvars features channels repetitions]; rewrite ?Dw; fold C Rr.
    + intros x f c r (If & Ic & Ir). cbn [features channels repetitions] in If, Ic, Ir. rewrite E1, E0.
      apply bsum_nonneg. intros i Hi. apply Rmult_le_pos; [now apply SP|]. apply Rmult_le_pos; apply N, IN; auto.
    + intros f c r (If & Ic & Ir). cbn [features channels repetitions] in If, Ic, Ir. rewrite E1, E0.
      apply (pair_dist D C (softmax C (lg f c r)) (fun i x => P x (in_feature Interleaved w 2 f 0) i r) (fun i x => P x (in_feature Interleaved w 2 f 1) i r)).
      * exact HC.
      * intros; now apply SP.
      * now apply softmax_sum.
      * intros i x Hi. apply N, IN; auto.
      * intros i x Hi. apply N, IN; auto.
      * intros i Hi. apply I, IN; auto.
      * intros i Hi. apply I, IN; auto.
      * intros v. apply Dj; try assumption; try (rewrite EW; apply in_feature_lt; lia).
        intros E. destruct (in_feature_inj Interleaved w f 0 f 1 If ltac:(lia) If ltac:(lia) E). lia.
    + intros f g r v Hf Hg Hr Hn. apply (pair_disj Interleaved w (fun f => vs f r) f g v Hf Hg Hn). intros a b u Ha Hb. apply Dj; rewrite ?EW; assumption.
    + intros r v Hr. rewrite (Cv r v Hr), EW. apply (pair_cover Interleaved w (fun f => vs f r)).
  - destruct HF as (<- & (w & Hw & EW)). fold Rr.
    assert (Dw : (features s / 2 = w)%nat) by (rewrite EW; apply Nat.div_mul; lia).
    assert (IN : forall f i c r, (f < w)%nat -> (i < 2)%nat -> (c < C)%nat -> (r < Rr)%nat -> in_shape s (in_feature Interleaved w 2 f i) c r).
    { intros f i c r A B E F. split; [|split; assumption]. rewrite EW. now apply in_feature_lt. }
    assert (E0 : forall f, (2 * f)%nat = in_feature Interleaved w 2 f 0) by (intros; cbn [in_feature]; lia).
    assert (E1 : forall f, (2 * f + 1)%nat = in_feature Interleaved w 2 f 1) by (intros; cbn [in_feature]; lia).
    assert (HCC : (0 < C * C)%nat) by nia.
    constructor; cbn [semsh sem semvars features channels repetitions]; rewrite ?Dw; fold C Rr.
    + intros x f c r (If & Ic & Ir). cbn [features channels repetitions] in If, Ic, Ir. rewrite E1, E0.
      apply bsum_nonneg. intros i Hi. apply bsum_nonneg. intros j Hj. apply Rmult_le_pos; [now apply Rlt_le, pair_weight_pos|].
      apply Rmult_le_pos; apply N, IN; auto.
    + intros f c r (If & Ic & Ir). cbn [features channels repetitions] in If, Ic, Ir. rewrite E1, E0.
      apply is_dist_ext with (g := fun x => lfrom (bsum (C * C) (fun q => softmax (C * C) (flat_logits C lg f c r) q *
         (P x (in_feature Interleaved w 2 f 0) (q / C)%nat r * P x (in_feature Interleaved w 2 f 1) (q mod C)%nat r)))).
      { intros x. f_equal. rewrite bsum_flat. apply bsum_ext. intros i Hi. apply bsum_ext. intros j Hj.
        replace ((i * C + j) / C)%nat with i by (rewrite Nat.add_comm, Nat.div_add by lia; rewrite Nat.div_small; lia).
        replace ((i * C + j) mod C)%nat with j by (rewrite Nat.add_comm, Nat.mod_add by lia; rewrite Nat.mod_small; lia).
        reflexivity. }
      assert (Q : forall q, (q < C * C)%nat -> (q / C < C)%nat /\ (q mod C < C)%nat).
      { intros q Hq. split; [apply Nat.div_lt_upper_bound; lia|apply Nat.mod_upper_bound; lia]. }
      apply (pair_dist D (C * C) (softmax (C * C) (flat_logits C lg f c r)) (fun q x => P x (in_feature Interleaved w 2 f 0) (q / C)%nat r)
               (fun q x => P x (in_feature Interleaved w 2 f 1) (q mod C)%nat r)).
      * exact HCC.
      * intros; now apply SP.
      * now apply softmax_sum.
      * intros q x Hq. apply N, IN; auto. now apply Q.
      * intros q x Hq. apply N, IN; auto. now apply Q.
      * intros q Hq. apply I, IN; auto. now apply Q.
      * intros q Hq. apply I, IN; auto. now apply Q.
      * intros v. apply Dj; try assumption; try (rewrite EW; apply in_feature_lt; lia).
        intros E. destruct (in_feature_inj Interleaved w f 0 f 1 If ltac:(lia) If ltac:(lia) E). lia.
    + intros f g r v Hf Hg Hr Hn. apply (pair_disj Interleaved w (fun f => vs f r) f g v Hf Hg Hn). intros a b u Ha Hb. apply Dj; rewrite ?EW; assumption.
    + intros r v Hr. rewrite (Cv r v Hr), EW. apply (pair_cover Interleaved w (fun f => vs f r)).
  - constructor; cbn [semsh sem semvars features channels repetitions]; fold C Rr.
    + intros x f c r (If & Ic & Ir). cbn [features channels repetitions] in If, Ic, Ir.
      apply bprod_nonneg. intros g Hg. apply N. repeat split; assumption.
    + intros f c r (If & Ic & Ir). cbn [features channels repetitions] in If, Ic, Ir.
      apply is_dist_ext with (g := fun x => ladds (features s) (fun g => lfrom (P x g c r))).
      * intros x. apply pr_inj. rewrite pr_ladds, pr_lfrom.
        -- apply bprod_ext. intros g Hg. apply pr_lfrom. apply N. repeat split; assumption.
        -- apply bprod_nonneg. intros g Hg. apply N. repeat split; assumption.
      * apply (dist_prod D (features s) (fun g => vs g r) (fun g x => lfrom (P x g c r))).
        -- intros g Hg. apply I. repeat split; assumption.
        -- intros g h v Hg Hh Hn. now apply Dj.
        -- intros v. apply (Cv r v Ir).
    + intros f g r v Hf Hg _ Hn. lia.
    + intros r v Hr. split; [intros Hv; exists 0%nat; split; [lia|exact Hv]|]. intros (f & _ & Hv). exact Hv.
Qed.
