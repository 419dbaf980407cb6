From Coq Require Import List Arith ZArith Bool Reals Lra Lia Binomial.
From Coquelicot Require Import Coquelicot.
From Verif Require Import Base ScopeModel CircuitModel CircuitBasics CircuitEval Integral MargProofs LeafModel.
Import ListNotations.
Local Open Scope R_scope.

(** ** projections *)

Lemma sigmoid_range x : 0 < sigmoid x < 1.
Proof.
  unfold sigmoid. pose proof (exp_pos (- x)). split.
  - apply Rdiv_lt_0_compat; lra.
  - apply (Rmult_lt_reg_r (1 + exp (- x))); [lra|]. unfold Rdiv. rewrite Rmult_assoc, Rinv_l by lra. lra.
Qed.

Lemma sigmoid_alt x : sigmoid x = exp x / (1 + exp x).
Proof. unfold sigmoid. rewrite exp_Ropp. pose proof (exp_pos x). field. lra. Qed.

Lemma sigmoid_neg x : sigmoid (- x) = 1 - sigmoid x.
Proof. rewrite sigmoid_alt. unfold sigmoid. rewrite exp_Ropp. pose proof (exp_pos x). field. lra. Qed.

Lemma logit_sigmoid x : ln (sigmoid x / (1 - sigmoid x)) = x.
Proof.
  rewrite <- (ln_exp x) at 3. f_equal. rewrite sigmoid_alt. pose proof (exp_pos x). field. lra.
Qed.

Lemma sigmoid_logit p : 0 < p < 1 -> sigmoid (ln (p / (1 - p))) = p.
Proof.
  intros H. rewrite sigmoid_alt. rewrite exp_ln by (apply Rdiv_lt_0_compat; lra). field. lra.
Qed.

Lemma softplus_sigmoid l : exp (- softplus l) = 1 - sigmoid l.
Proof.
  unfold softplus. rewrite exp_Ropp, exp_ln, sigmoid_alt by (pose proof (exp_pos l); lra).
  pose proof (exp_pos l). field. lra.
Qed.

Lemma exp_sigmoid l : exp l * (1 - sigmoid l) = sigmoid l.
Proof. rewrite sigmoid_alt. pose proof (exp_pos l). field. lra. Qed.

Lemma real_to_bounded_range x lb ub y :
  (forall l u, lb = Some l -> ub = Some u -> l < u) -> proj_real_to_bounded x lb ub = Ok y ->
  (forall l, lb = Some l -> l < y) /\ (forall u, ub = Some u -> y < u).
Proof.
  intros H E. destruct lb as [l|], ub as [u|]; cbn in E; try discriminate; injection E as <-.
  - specialize (H l u eq_refl eq_refl). pose proof (sigmoid_range x).
    split; intros ? [= <-].
    + pose proof (Rmult_lt_0_compat (sigmoid x) (u - l)). lra.
    + assert (sigmoid x * (u - l) < 1 * (u - l)); [apply Rmult_lt_compat_r; lra|lra].
  - split; intros ? [=]; subst. pose proof (exp_pos x). lra.
  - split; intros ? [=]; subst. pose proof (exp_pos x). lra.
Qed.

Lemma bounded_to_real_inv x lb ub y :
  (forall l u, lb = Some l -> ub = Some u -> l < u) -> proj_real_to_bounded x lb ub = Ok y ->
  proj_bounded_to_real y lb ub = Ok x.
Proof.
  intros H E. destruct lb as [l|], ub as [u|]; cbn in E; try discriminate; injection E as <-; cbn; f_equal.
  - specialize (H l u eq_refl eq_refl). rewrite <- (logit_sigmoid x) at 3. f_equal.
    pose proof (sigmoid_range x). field. repeat split; try lra.
    replace (u - (sigmoid x * (u - l) + l)) with ((1 - sigmoid x) * (u - l)) by ring.
    apply Rmult_integral_contrapositive; split; lra.
  - replace (exp x + l - l) with (exp x) by ring. apply ln_exp.
  - replace (u - (- exp x + u)) with (exp x) by ring. apply ln_exp.
Qed.

Lemma real_to_bounded_inv y lb ub : (lb <> None \/ ub <> None) ->
  (forall l, lb = Some l -> l < y) -> (forall u, ub = Some u -> y < u) ->
  exists x, proj_bounded_to_real y lb ub = Ok x /\ proj_real_to_bounded x lb ub = Ok y.
Proof.
  intros HN Hl Hu. destruct lb as [l|], ub as [u|]; cbn; [| | |destruct HN; congruence];
    (eexists; split; [reflexivity|]); f_equal.
  - specialize (Hl l eq_refl). specialize (Hu u eq_refl).
    replace ((y - l) / (u - y)) with (((y - l) / (u - l)) / (1 - (y - l) / (u - l))) by (field; lra).
    rewrite sigmoid_logit; [field; lra|]. split.
    + apply Rdiv_lt_0_compat; lra.
    + apply (Rmult_lt_reg_r (u - l)); [lra|]. unfold Rdiv. rewrite Rmult_assoc, Rinv_l by lra. lra.
  - specialize (Hl l eq_refl). rewrite exp_ln; lra.
  - specialize (Hu u eq_refl). rewrite exp_ln; lra.
Qed.

Lemma convex_roundtrip n w : (forall i, (i < n)%nat -> 0 < w i) -> bsum n w = 1 ->
  forall i, (i < n)%nat -> proj_real_to_convex n (proj_convex_to_real w) i = w i.
Proof. intros H S i Hi. unfold proj_real_to_convex, proj_convex_to_real. now apply softmax_ln. Qed.

(** ** naturals as cell values *)

Lemma Int_part_INR k : Int_part (INR k) = Z.of_nat k.
Proof.
  rewrite INR_IZR_INZ. symmetry.
  destruct (base_Int_part (IZR (Z.of_nat k))) as [A B].
  apply le_IZR in A.
  assert (Z.of_nat k - 1 < Int_part (IZR (Z.of_nat k)))%Z.
  { apply lt_IZR. rewrite minus_IZR. lra. }
  lia.
Qed.

Lemma asnat_INR k : asnat (INR k) = Some k.
Proof.
  unfold asnat. rewrite Int_part_INR, Nat2Z.id. destruct (Req_EM_T (INR k) (INR k)); congruence.
Qed.

Lemma asnat_Some a k : asnat a = Some k -> a = INR k.
Proof. unfold asnat. destruct (Req_EM_T _ _) as [E|]; [|discriminate]. intros [= <-]. exact E. Qed.

Lemma asnat_0 : asnat 0 = Some 0%nat. Proof. exact (asnat_INR 0). Qed.
Lemma asnat_1 : asnat 1 = Some 1%nat. Proof. exact (asnat_INR 1). Qed.

Lemma lfact_exp k : exp (lfact k) = INR (fact k).
Proof. apply exp_ln, INR_fact_lt_0. Qed.
Lemma lfact_exp_neg k : exp (- lfact k) = / INR (fact k).
Proof. now rewrite exp_Ropp, lfact_exp. Qed.

Lemma exp_INR_mult k x : exp (INR k * x) = exp x ^ k.
Proof.
  induction k as [|k IH]; [cbn; now rewrite Rmult_0_l, exp_0|].
  rewrite S_INR, Rmult_plus_distr_r, Rmult_1_l, exp_plus, IH. cbn. ring.
Qed.

(** ** the textbook probability functions *)

Lemma pr_bernoulli l k : (k < 2)%nat ->
  pr (fam_lp (FBernoulli l) (INR k)) = if Nat.eqb k 1 then sigmoid l else 1 - sigmoid l.
Proof.
  intros Hk. unfold fam_lp. cbn [supp]. rewrite asnat_INR. rewrite (proj2 (Nat.ltb_lt _ _) Hk).
  cbn [lp_formula pr]. unfold Rminus. rewrite exp_plus, softplus_sigmoid.
  destruct k as [|[|k]]; [| |lia]; cbn.
  - rewrite Rmult_0_l, exp_0. ring.
  - rewrite Rmult_1_l. apply exp_sigmoid.
Qed.

Lemma pr_categorical K lg k : (k < K)%nat -> pr (fam_lp (FCategorical K lg) (INR k)) = softmax K lg k.
Proof.
  intros Hk. unfold fam_lp. cbn [supp lp_formula]. rewrite asnat_INR, (proj2 (Nat.ltb_lt _ _) Hk).
  cbn [pr]. apply exp_log_softmax. lia.
Qed.

Lemma pr_binomial n l k : (k <= n)%nat ->
  pr (fam_lp (FBinomial n l) (INR k)) = Binomial.C n k * sigmoid l ^ k * (1 - sigmoid l) ^ (n - k).
Proof.
  intros Hk. unfold fam_lp. cbn [supp lp_formula]. rewrite asnat_INR, (proj2 (Nat.leb_le _ _) Hk).
  cbn [pr]. replace (INR k * l - lfact k - lfact (n - k) - (INR n * softplus l - lfact n))
    with (lfact n + (- lfact k + (- lfact (n - k) + (INR k * l + INR n * - softplus l)))) by ring.
  rewrite !exp_plus, !lfact_exp_neg, lfact_exp, !exp_INR_mult, softplus_sigmoid.
  unfold Binomial.C. replace n with (k + (n - k))%nat at 3 by lia. rewrite pow_add.
  replace (exp l ^ k * ((1 - sigmoid l) ^ k * (1 - sigmoid l) ^ (n - k))) with ((exp l * (1 - sigmoid l)) ^ k * (1 - sigmoid l) ^ (n - k)).
  2:{ rewrite Rpow_mult_distr. ring. }
  rewrite exp_sigmoid. field. split; apply INR_fact_neq_0.
Qed.

Lemma pr_geometric l k : pr (fam_lp (FGeometric l) (INR k)) = sigmoid l * (1 - sigmoid l) ^ k.
Proof.
  unfold fam_lp. cbn [supp lp_formula]. rewrite asnat_INR. cbn [pr]. pose proof (sigmoid_range l).
  rewrite exp_plus, exp_INR_mult, !exp_ln by lra. ring.
Qed.

Lemma pr_poisson lr k : pr (fam_lp (FPoisson lr) (INR k)) = exp (- exp lr) * exp lr ^ k / INR (fact k).
Proof.
  unfold fam_lp. cbn [supp lp_formula]. rewrite asnat_INR. cbn [pr]. rewrite ln_exp.
  replace (INR k * lr - exp lr - lfact k) with (INR k * lr + (- exp lr + - lfact k)) by ring.
  rewrite !exp_plus, exp_INR_mult, lfact_exp_neg. unfold Rdiv. ring.
Qed.

Lemma ln_exp_sub a b : exp (a - b) = exp a * exp (- b).
Proof. unfold Rminus. apply exp_plus. Qed.

Lemma pr_negbin r l k :
  pr (fam_lp (FNegBin r l) (INR k)) =
  (if Nat.eqb r 0 then (if Nat.eqb k 0 then 1 else 0)
   else Binomial.C (r + k - 1) k * sigmoid l ^ k * (1 - sigmoid l) ^ r).
Proof.
  unfold fam_lp. cbn [supp lp_formula]. rewrite asnat_INR. pose proof (sigmoid_range l).
  destruct (Nat.eqb_spec r 0) as [->|Hr].
  - destruct (Nat.eqb_spec k 0) as [->|Hk].
    + cbn. rewrite !Rmult_0_l, Rplus_0_l. apply exp_0.
    + replace (Nat.eqb (0 + k) 0) with false by (symmetry; apply Nat.eqb_neq; lia). reflexivity.
  - replace (Nat.eqb (r + k) 0) with false by (symmetry; apply Nat.eqb_neq; lia). cbn [pr].
    rewrite ln_exp_sub, exp_plus, !exp_INR_mult, !exp_ln by (apply sigmoid_range || lra).
    rewrite sigmoid_neg.
    replace (- (- lfact (r + k - 1) + lfact k + lfact (r - 1))) with (lfact (r + k - 1) + (- lfact k + - lfact (r - 1))) by ring.
    rewrite !exp_plus, !lfact_exp_neg, lfact_exp. unfold Binomial.C.
    replace (r + k - 1 - k)%nat with (r - 1)%nat by lia. field. split; apply INR_fact_neq_0.
Qed.
