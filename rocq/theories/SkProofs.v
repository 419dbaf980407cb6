(** Scores of the density estimator. *)
From Coq Require Import List Arith ZArith Bool Lia Lra.
From Verif Require Import Base ScopeModel ScopeProofs CircuitModel CircuitSpec CircuitEval Integral CircuitProps CmsModel CmsProofs SocsTop PosteriorModel SkModel SkSpec.
Import ListNotations.
Local Open Scope R_scope.

Lemma bsum_first n (g : nat -> R) : (0 < n)%nat -> bsum n (fun i => (if Nat.eqb i 0 then 1 else 0) * g i) = g 0%nat.
Proof.
  intros H. destruct n as [|n]; [lia|]. clear H. induction n as [|n IH]; [cbn; ring|].
  change (bsum (S n) (fun i => (if Nat.eqb i 0 then 1 else 0) * g i) + (if Nat.eqb (S n) 0 then 1 else 0) * g (S n) = g 0%nat).
  rewrite IH. cbn [Nat.eqb]. ring.
Qed.
Lemma bsum_scal_l n k (g : nat -> R) : bsum n (fun i => k * g i) = k * bsum n g.
Proof. induction n as [|n IH]; cbn [bsum]; [ring|]. rewrite IH. ring. Qed.

Definition valid (a : agg) (n : nat) : Prop := n = 1%nat \/ a <> Unknown.
Lemma reduce_over_ok a n g : (0 < n)%nat -> valid a n ->
  exists v, reduce_over n a g = Ok v /\ pr v = bsum n (fun i => aweight a n i * pr (g i)).
Proof.
  intros H V. unfold reduce_over. destruct (Nat.eqb_spec n 1) as [->|N1].
  - exists (g 0%nat). split; [reflexivity|]. cbn. destruct a; cbn; lra.
  - destruct V as [V|V]; [lia|]. destruct (Nat.eqb_spec n 0) as [->|N0]; [lia|]. destruct a.
    + eexists; split; [reflexivity|]. rewrite pr_ladd, pr_lse. cbn [pr]. rewrite exp_Ropp, exp_ln by (apply lt_0_INR; lia).
      unfold aweight. rewrite bsum_scal_l. unfold Rdiv. ring.
    + eexists; split; [reflexivity|]. rewrite pr_lse. apply bsum_ext. intros i _. cbn. ring.
    + eexists; split; [reflexivity|]. unfold aweight. now rewrite (bsum_first n (fun i => pr (g i))) by lia.
    + congruence.
Qed.
Lemma reduce_over_unknown n g : n <> 1%nat -> reduce_over n Unknown g = Err.
Proof. intros H. unfold reduce_over. destruct (Nat.eqb_spec n 1); [lia|reflexivity]. Qed.

Lemma reduce_row_ok s ca ra g : (0 < channels s)%nat -> (0 < repetitions s)%nat -> valid ca (channels s) -> valid ra (repetitions s) ->
  exists v, reduce_row s ca ra g = Ok v /\
    pr v = bsum (channels s) (fun c => aweight ca (channels s) c *
             bsum (repetitions s) (fun r => aweight ra (repetitions s) r * bprod (features s) (fun f => pr (g f c r)))).
Proof.
  intros HC HR VC VR. unfold reduce_row. destruct (reduce_over_ok ra (repetitions s) (fun _ => NInf) HR VR) as (z & E0 & _). rewrite E0.
  match goal with |- exists v, reduce_over _ _ ?h = _ /\ _ => destruct (reduce_over_ok ca (channels s) h HC VC) as (v & E & P) end.
  exists v. split; [exact E|]. rewrite P. apply bsum_ext. intros c _. f_equal.
  match goal with |- pr (match reduce_over _ _ ?h with _ => _ end) = _ => destruct (reduce_over_ok ra (repetitions s) h HR VR) as (u & Eu & Pu) end.
  rewrite Eu, Pu. apply bsum_ext. intros r _. now rewrite pr_ladds.
Qed.
Lemma reduce_row_err s ca ra g : ~ (valid ca (channels s) /\ valid ra (repetitions s)) -> reduce_row s ca ra g = Err.
Proof.
  intros H. unfold reduce_row. destruct (Nat.eq_dec (repetitions s) 1) as [ER|NR].
  - assert (NC : channels s <> 1%nat /\ ca = Unknown).
    { split; [intros E; apply H; split; now left|]. destruct ca; try reflexivity; exfalso; apply H; split; try (right; discriminate); now left. }
    destruct NC as [NC ->]. rewrite ER. cbn [reduce_over Nat.eqb]. now apply reduce_over_unknown.
  - destruct ra; try (rewrite reduce_over_unknown by exact NR; reflexivity);
    assert (NC : channels s <> 1%nat /\ ca = Unknown) by
      (split; [intros E; apply H; split; [now left|right; discriminate]|destruct ca; try reflexivity; exfalso; apply H; split; right; discriminate]);
    destruct NC as [NC ->]; destruct (reduce_over _ _ _); try reflexivity; now apply reduce_over_unknown.
Qed.

(** shapes of built circuits *)
Lemma atotal_weights a n : (0 < n)%nat -> valid a n -> bsum n (aweight a n) = atotal a n.
Proof.
  intros H V. unfold aweight, atotal. destruct a.
  - rewrite (bsum_ext n _ (fun i => 1 / INR n * 1)) by (intros; ring). rewrite bsum_scal_l.
    assert (E : bsum n (fun _ => 1) = INR n) by (clear; induction n as [|n IH]; [reflexivity|]; rewrite S_INR; cbn [bsum]; now rewrite IH).
    rewrite E. field. apply not_0_INR. lia.
  - clear. induction n as [|n IH]; [reflexivity|]. rewrite S_INR. cbn [bsum]. now rewrite IH.
  - rewrite (bsum_ext n _ (fun i => (if Nat.eqb i 0 then 1 else 0) * 1)) by (intros; ring). now apply (bsum_first n (fun _ => 1)).
  - destruct V as [->|V]; [cbn; ring|congruence].
Qed.

Lemma sums_over_bsum D vs n (G : nat -> row -> R) (U : nat -> R) x : (0 < n)%nat ->
  (forall i, (i < n)%nat -> sums_over D vs (G i) x (U i)) -> sums_over D vs (fun y => bsum n (fun i => G i y)) x (bsum n U).
Proof.
  intros Hn. destruct n as [|n]; [lia|]. clear Hn. induction n as [|n IH]; intros H.
  - pose proof (sums_over_scal D vs 1 (G 0%nat) x (U 0%nat) (H 0%nat ltac:(lia))) as E.
    cbn [bsum]. rewrite Rplus_0_l. assert (EQ : (fun y => 0 + G 0%nat y) = (fun y => 1 * G 0%nat y)) by (apply functional_extensionality; intros; ring).
    rewrite EQ. now rewrite Rmult_1_l in E.
  - change (sums_over D vs (fun y => bsum (S n) (fun i => G i y) + G (S n) y) x (bsum (S n) U + U (S n))).
    apply sums_over_plus; [apply IH; intros; apply H; lia|apply H; lia].
Qed.

Lemma insu_head a l : (forall b, In b l -> (a < b)%nat) -> insu a l = a :: l.
Proof. intros H. destruct l as [|b l]; [reflexivity|]. cbn. specialize (H b (or_introl eq_refl)). destruct (Nat.ltb_spec a b); [reflexivity|lia]. Qed.
Lemma sortu_seq k n : sortu (seq k n) = seq k n.
Proof.
  revert k. induction n as [|n IH]; intros k; [reflexivity|]. cbn [seq]. unfold sortu. cbn [fold_right]. fold (sortu (seq (S k) n)). rewrite IH.
  apply insu_head. intros b Hb. apply in_seq in Hb. lia.
Qed.
Lemma oargmax_lt n g : (0 < n)%nat -> (oargmax n g < n)%nat.
Proof.
  induction n as [|k IH]; [lia|]. intros _. cbn [oargmax]. destruct (Nat.eqb_spec k 0); [lia|]. specialize (IH ltac:(lia)).
  destruct (g (oargmax k g)) as [u|]; [|lia]. destruct (g k) as [w|]; [|lia]. destruct (Rlt_dec u w); lia.
Qed.
