(** Moments, divergences and modes of the discrete latent families. *)
From Coq Require Import List Arith ZArith Bool Reals Lra Lia Binomial.
From Verif Require Import Base ScopeModel CircuitModel CircuitBasics CircuitEval Integral LeafModel LeafProofs LeafSpec LeafNorm CtxModel CtxProofs ApcModel ApcSpec.
Import ListNotations.
Local Open Scope R_scope.

Lemma ln_half : ln (1 / 2) = - ln 2.
Proof. replace (1 / 2) with (/ 2) by field. apply ln_Rinv. lra. Qed.
Lemma sigmoid_0 : sigmoid 0 = 1 / 2.
Proof. unfold sigmoid. rewrite Ropp_0, exp_0. field. Qed.
Lemma sums_range K g u : bsum K (fun k => g (INR k)) = u -> sums (DFin (map INR (seq 0 K))) g u.
Proof. apply sums_fin_nat. Qed.

(** ** Bernoulli *)
Lemma dens_b0 l : dens (FBernoulli l) 0 = 1 - sigmoid l.
Proof. exact (pr_bernoulli l 0 ltac:(lia)). Qed.
Lemma dens_b1 l : dens (FBernoulli l) 1 = sigmoid l.
Proof. exact (pr_bernoulli l 1 ltac:(lia)). Qed.
Lemma ln_quot x y : 0 < x -> 0 < y -> ln (x / y) = ln x - ln y.
Proof. intros A B. unfold Rdiv. rewrite ln_mult, ln_Rinv by (try apply Rinv_0_lt_compat; assumption). ring. Qed.

Lemma bern_mean l : mean_of (FBernoulli l) (sigmoid l).
Proof. unfold mean_of. cbn [range_of sums map lsumR]. rewrite dens_b0, dens_b1. ring. Qed.
Lemma bern_var l : var_of (FBernoulli l) (sigmoid l * (1 - sigmoid l)).
Proof. exists (sigmoid l). split; [apply bern_mean|]. cbn [range_of sums map lsumR]. rewrite dens_b0, dens_b1. ring. Qed.
Definition hkl (p : R) : R := p * (ln p - ln (1 / 2)) + (1 - p) * (ln (1 - p) - ln (1 / 2)).
Lemma bern_kl_of l : kl_of (FBernoulli l) (FBernoulli 0) (hkl (sigmoid l)).
Proof.
  unfold kl_of, hkl. cbn [range_of sums map lsumR]. rewrite !dens_b0, !dens_b1, sigmoid_0.
  pose proof (sigmoid_range l). replace (1 - 1 / 2) with (1 / 2) by field. rewrite !ln_quot by lra. ring.
Qed.

(** ** binomial *)
Definition bexp (n : nat) (p : R) (f : nat -> R) : R := bsum (S n) (fun k => ch n k * p ^ k * (1 - p) ^ (n - k) * f k).
Lemma bexp_ext n p f g : (forall k, f k = g k) -> bexp n p f = bexp n p g.
Proof. intros H. apply bsum_ext. intros. now rewrite H. Qed.
Lemma bexp_S n p f : bexp (S n) p f = (1 - p) * bexp n p f + p * bexp n p (fun k => f (S k)).
Proof.
  unfold bexp. rewrite bsum_S_first, ch_0_r.
  rewrite (bsum_ext (S n) (fun i => ch (S n) (S i) * p ^ S i * (1 - p) ^ (S n - S i) * f (S i))
     (fun i => p * (ch n i * p ^ i * (1 - p) ^ (n - i) * f (S i)) + ch n (S i) * p ^ S i * (1 - p) ^ (n - i) * f (S i))).
  2:{ intros i _. cbn [ch pow]. replace (S n - S i)%nat with (n - i)%nat by lia. ring. }
  rewrite bsum_plus, bsum_scal.
  rewrite (bsum_S_first n (fun k => ch n k * p ^ k * (1 - p) ^ (n - k) * f k)), ch_0_r.
  cbn [bsum] . rewrite (ch_gt n (S n)) by lia. rewrite !Nat.sub_0_r.
  rewrite (bsum_ext n (fun i => ch n (S i) * p ^ S i * (1 - p) ^ (n - i) * f (S i))
     (fun i => (1 - p) * (ch n (S i) * p ^ S i * (1 - p) ^ (n - S i) * f (S i)))).
  2:{ intros i Hi. replace (n - i)%nat with (S (n - S i)) by lia. cbn [pow]. ring. }
  rewrite bsum_scal. cbn [pow]. ring.
Qed.
Lemma bexp_0 p f : bexp 0 p f = f 0%nat.
Proof. unfold bexp. cbn. ring. Qed.
Lemma bexp_one n p : bexp n p (fun _ => 1) = 1.
Proof. induction n as [|n IH]; [apply bexp_0|]. rewrite bexp_S, IH. ring. Qed.
Lemma bexp_lin n p : forall a b, bexp n p (fun k => a + b * INR k) = a + b * (INR n * p).
Proof.
  induction n as [|n IH]; intros a b; [rewrite bexp_0; cbn; ring|]. rewrite bexp_S, IH.
  rewrite (bexp_ext _ _ _ (fun k => (a + b) + b * INR k)) by (intros; rewrite S_INR; ring).
  rewrite IH, S_INR. ring.
Qed.
Lemma bexp_sq n p : forall c, bexp n p (fun k => (INR k - c) ^ 2) = INR n * p * (1 - p) + (INR n * p - c) ^ 2.
Proof.
  induction n as [|n IH]; intros c; [rewrite bexp_0; cbn; ring|]. rewrite bexp_S, IH.
  rewrite (bexp_ext _ _ _ (fun k => (INR k - (c - 1)) ^ 2)) by (intros; rewrite S_INR; ring).
  rewrite IH, S_INR. ring.
Qed.

Lemma C_ch n k : (k <= n)%nat -> Binomial.C n k = ch n k.
Proof.
  intros H. pose proof (ch_fact n k H) as E. unfold Binomial.C. rewrite <- E.
  pose proof (INR_fact_neq_0 k). pose proof (INR_fact_neq_0 (n - k)). field. auto.
Qed.
Lemma dens_binom n l k : (k <= n)%nat -> dens (FBinomial n l) (INR k) = ch n k * sigmoid l ^ k * (1 - sigmoid l) ^ (n - k).
Proof. intros H. unfold dens. now rewrite pr_binomial, C_ch. Qed.
Lemma binom_sums n l g u : bexp n (sigmoid l) (fun k => g (INR k)) = u ->
  sums (range_of (FBinomial n l)) (fun a => g a * dens (FBinomial n l) a) u.
Proof.
  intros <-. apply sums_range. apply bsum_ext. intros k Hk. rewrite dens_binom by lia. ring.
Qed.
Lemma binom_mean n l : mean_of (FBinomial n l) (INR n * sigmoid l).
Proof.
  apply (binom_sums n l (fun a => a)). rewrite (bexp_ext _ _ _ (fun k => 0 + 1 * INR k)) by (intros; ring).
  rewrite bexp_lin. ring.
Qed.
Lemma binom_var n l : var_of (FBinomial n l) (INR n * sigmoid l * (1 - sigmoid l)).
Proof.
  exists (INR n * sigmoid l). split; [apply binom_mean|].
  apply (binom_sums n l (fun a => (a - INR n * sigmoid l) ^ 2)). rewrite bexp_sq. ring.
Qed.
Lemma pr_pos_binom n l k : (k <= n)%nat ->
  dens (FBinomial n l) (INR k) = exp (INR k * l - lfact k - lfact (n - k) - (INR n * softplus l - lfact n)).
Proof.
  intros Hk. unfold dens, fam_lp. cbn [supp lp_formula]. rewrite asnat_INR, (proj2 (Nat.leb_le _ _) Hk). reflexivity.
Qed.
Lemma softplus_ln l : softplus l = - ln (1 - sigmoid l).
Proof. rewrite <- softplus_sigmoid, ln_exp. ring. Qed.
Lemma logit_ln l : l = ln (sigmoid l) - ln (1 - sigmoid l).
Proof. pose proof (sigmoid_range l). rewrite <- ln_quot by lra. symmetry. apply logit_sigmoid. Qed.
Lemma binom_kl n l : kl_of (FBinomial n l) (FBinomial n 0) (INR n * hkl (sigmoid l)).
Proof.
  unfold kl_of. apply (sums_ext _ (fun a => ln (dens (FBinomial n l) a / dens (FBinomial n 0) a) * dens (FBinomial n l) a)); [intros; ring|].
  apply (binom_sums n l (fun a => ln (dens (FBinomial n l) a / dens (FBinomial n 0) a))).
  transitivity (bexp n (sigmoid l) (fun k => (- INR n * softplus l + INR n * ln 2) + l * INR k)).
  - apply bsum_ext. intros k Hk. f_equal. rewrite !pr_pos_binom by lia. unfold Rdiv. rewrite <- exp_Ropp, <- exp_plus, ln_exp.
    assert (softplus 0 = ln 2) as -> by (unfold softplus; rewrite exp_0; f_equal; ring). ring.
  - rewrite bexp_lin, softplus_ln. unfold hkl. rewrite (logit_ln l) at 2. rewrite ln_half. ring.
Qed.

(** unimodality *)
Lemma climb (f : nat -> R) m : (forall k, (k < m)%nat -> f k <= f (S k)) -> forall k, (k <= m)%nat -> f k <= f m.
Proof.
  induction m as [|m IH]; intros H k Hk; [replace k with 0%nat by lia; lra|].
  destruct (Nat.eq_dec k (S m)) as [->|N]; [lra|]. apply Rle_trans with (f m); [apply IH; [auto|lia]|apply H; lia].
Qed.
Lemma descend (f : nat -> R) m n : (forall k, (m <= k < n)%nat -> f (S k) <= f k) -> forall k, (m <= k <= n)%nat -> f k <= f m.
Proof.
  intros H k. induction k as [|k IH]; intros Hk; [replace m with 0%nat by lia; lra|].
  destruct (Nat.eq_dec m (S k)) as [->|N]; [lra|]. apply Rle_trans with (f k); [apply H; lia|apply IH; lia].
Qed.

Lemma binom_step n l k : (k < n)%nat ->
  dens (FBinomial n l) (INR (S k)) * (INR (S k) * (1 - sigmoid l)) = dens (FBinomial n l) (INR k) * (INR (n - k) * sigmoid l).
Proof.
  intros Hk. unfold dens. rewrite !pr_binomial by lia. rewrite pascal_step3 by assumption.
  replace (n - k)%nat with (S (n - S k)) at 2 by lia. cbn [pow]. field. apply not_0_INR. lia.
Qed.

Lemma binom_mode n l m : (m <= n)%nat ->
  (forall k, (k < m)%nat -> INR (S k) <= (INR n + 1) * sigmoid l) ->
  (forall k, (m <= k < n)%nat -> (INR n + 1) * sigmoid l <= INR (S k)) ->
  is_mode (FBinomial n l) (INR m).
Proof.
  intros Hm Up Dn. pose proof (sigmoid_range l) as [S0 S1].
  assert (forall k, (k <= n)%nat -> 0 < dens (FBinomial n l) (INR k)) as P.
  { intros k Hk. rewrite pr_pos_binom by assumption. apply exp_pos. }
  split.
  - unfold in_range. cbn [range_of]. apply in_map. apply in_seq. lia.
  - unfold in_range. cbn [range_of]. intros b Hb. apply in_map_iff in Hb as (k & <- & Hk). apply in_seq in Hk.
    destruct (le_lt_dec k m) as [L|L].
    + apply (climb (fun k => dens (FBinomial n l) (INR k))); [|exact L]. intros j Hj. cbv beta.
      pose proof (binom_step n l j ltac:(lia)) as E. pose proof (Up j Hj) as U.
      apply (Rmult_le_reg_r (INR (S j) * (1 - sigmoid l))). { apply Rmult_lt_0_compat; [apply lt_0_INR; lia|lra]. }
      rewrite E. apply Rmult_le_compat_l; [left; apply P; lia|]. rewrite minus_INR by lia. rewrite S_INR in *. lra.
    + apply (descend (fun k => dens (FBinomial n l) (INR k)) m n); [|lia]. intros j Hj. cbv beta.
      pose proof (binom_step n l j ltac:(lia)) as E. pose proof (Dn j Hj) as U.
      apply (Rmult_le_reg_r (INR (S j) * (1 - sigmoid l))). { apply Rmult_lt_0_compat; [apply lt_0_INR; lia|lra]. }
      rewrite E. apply Rmult_le_compat_l; [left; apply P; lia|]. rewrite minus_INR by lia. rewrite S_INR in *. lra.
Qed.

(** ** categorical *)
Lemma dens_cat K lg k : (k < K)%nat -> dens (FCategorical K lg) (INR k) = softmax K lg k.
Proof. apply pr_categorical. Qed.
Lemma cat_mean K lg : mean_of (FCategorical K lg) (bsum K (fun k => softmax K lg k * INR k)).
Proof. apply sums_range. apply bsum_ext. intros k Hk. rewrite dens_cat by assumption. ring. Qed.
Lemma cat_var K lg : (0 < K)%nat -> var_of (FCategorical K lg)
  (bsum K (fun k => softmax K lg k * INR k ^ 2) - bsum K (fun k => softmax K lg k * INR k) ^ 2).
Proof.
  intros HK. exists (bsum K (fun k => softmax K lg k * INR k)). split; [apply cat_mean|]. apply sums_range.
  set (u := bsum K (fun k => softmax K lg k * INR k)).
  rewrite (bsum_ext K _ (fun k => softmax K lg k * INR k ^ 2 + ((- (2 * u)) * (softmax K lg k * INR k) + u ^ 2 * softmax K lg k))).
  2:{ intros k Hk. rewrite dens_cat by assumption. ring. }
  rewrite !bsum_plus, !bsum_scal, softmax_sum by assumption. fold u. ring.
Qed.
Lemma softmax_flat K k : (0 < K)%nat -> softmax K (fun _ => 0) k = / INR K.
Proof. intros H. unfold softmax. rewrite bsum_const, exp_0. field. apply not_0_INR. lia. Qed.
Lemma cat_kl K lg : (0 < K)%nat -> kl_of (FCategorical K lg) (FCategorical K (fun _ => 0))
  (bsum K (fun k => softmax K lg k * (ln (softmax K lg k) + ln (INR K)))).
Proof.
  intros HK. apply sums_range. apply bsum_ext. intros k Hk. rewrite !dens_cat by assumption.
  assert (0 < INR K) by (apply lt_0_INR; lia). pose proof (softmax_pos K lg k HK).
  rewrite softmax_flat, ln_quot, ln_Rinv by (try apply Rinv_0_lt_compat; assumption). ring.
Qed.
Lemma cat_mode K lg j : (j < K)%nat -> (forall i, (i < K)%nat -> softmax K lg i <= softmax K lg j) ->
  is_mode (FCategorical K lg) (INR j).
Proof.
  intros Hj H. split; unfold in_range; cbn [range_of].
  - apply in_map, in_seq. lia.
  - intros b Hb. apply in_map_iff in Hb as (k & <- & Hk). apply in_seq in Hk. rewrite !dens_cat by lia. apply H. lia.
Qed.
