(** Metropolis-Hastings: detailed balance, invariance, convergence (C46). *)
From Coq Require Import List Arith ZArith Bool Reals Lia Lra.
From Verif Require Import Base CircuitModel Integral SampleModel SampleSpec SampleExp SignedModel SignedSpec.
Import ListNotations.
Local Open Scope R_scope.

Definition acc (lt lq : nat -> lval) x y : R := accept_prob (log_alpha (lt x) (lt y) (lq x) (lq y)).

Lemma acc_range lt lq x y : 0 <= acc lt lq x y <= 1.
Proof.
  unfold acc, accept_prob. destruct (log_alpha _ _ _ _) as [| |z|]; try lra.
  pose proof (exp_pos z). split; [apply Rmin_glb; lra|apply Rmin_l].
Qed.

Lemma balance_fin a b c d : exp a * (exp d * Rmin 1 (exp (b - a + (c - d)))) = exp b * (exp c * Rmin 1 (exp (a - b + (d - c)))).
Proof.
  assert (forall u v w, exp u * (exp v * exp w) = exp (u + v + w)) as E by (intros; rewrite !exp_plus; ring).
  destruct (Rle_dec (b + c) (a + d)) as [H|H].
  - rewrite (Rmin_right 1 (exp (b - a + (c - d)))).
    2:{ rewrite <- exp_0. destruct (Req_dec (b - a + (c - d)) 0) as [-> |]; [lra|]. left. apply exp_increasing. lra. }
    rewrite (Rmin_left 1 (exp (a - b + (d - c)))).
    2:{ rewrite <- exp_0. destruct (Req_dec (a - b + (d - c)) 0) as [-> |]; [lra|]. left. apply exp_increasing. lra. }
    rewrite E, Rmult_1_r, <- exp_plus. f_equal. ring.
  - rewrite (Rmin_left 1 (exp (b - a + (c - d)))).
    2:{ rewrite <- exp_0. left. apply exp_increasing. lra. }
    rewrite (Rmin_right 1 (exp (a - b + (d - c)))).
    2:{ rewrite <- exp_0. left. apply exp_increasing. lra. }
    rewrite E, Rmult_1_r, <- exp_plus. f_equal. ring.
Qed.

(** pi(x) q(y) alpha(x,y) = pi(y) q(x) alpha(y,x) *)
Lemma detailed_balance lt lq x y :
  pr (lt x) * (pr (lq y) * acc lt lq x y) = pr (lt y) * (pr (lq x) * acc lt lq y x).
Proof.
  unfold acc, log_alpha. destruct (lt x) as [|a], (lt y) as [|b], (lq x) as [|c], (lq y) as [|d];
    cbn [xsub xadd accept_prob pr]; try ring. apply balance_fin.
Qed.

(** expectation of [g] after one step from [x] *)
Definition step_exp n lt lq (g : nat -> R) (x : nat) : R :=
  bsum n (fun y => pr (lq y) * (acc lt lq x y * g y + (1 - acc lt lq x y) * g x)).
Fixpoint loop_exp n lt lq (g : nat -> R) (k : nat) : nat -> R :=
  match k with O => g | S k => step_exp n lt lq (loop_exp n lt lq g k) end.

Lemma expects_choose2 {A} D a (k : nat -> prog A) g u0 u1 : expects D (k 0%nat) g u0 -> expects D (k 1%nat) g u1 ->
  expects D (Choose 2 (fun i => if Nat.eqb i 0 then a else 1 - a) k) g (a * u0 + (1 - a) * u1).
Proof.
  intros H0 H1. cbn [expects]. exists (fun i => if Nat.eqb i 0 then u0 else u1). split.
  - intros i Hi _. destruct i as [|[|i]]; [exact H0|exact H1|lia].
  - cbn. ring.
Qed.

Lemma mh_loop_exp D n lt lq g k : forall x, expects D (mh_loop n lt lq k x) g (loop_exp n lt lq g k x).
Proof.
  induction k as [|k IH]; intros x; [reflexivity|]. cbn [mh_loop mh_step pbind loop_exp]. unfold step_exp.
  cbn [expects].
  exists (fun y => acc lt lq x y * loop_exp n lt lq g k y + (1 - acc lt lq x y) * loop_exp n lt lq g k x).
  split; [|reflexivity]. intros y Hy _. apply expects_choose2; [exact (IH y)|exact (IH x)].
Qed.

Lemma mh_chain_exp D n lt lq g k :
  expects D (mh_chain n lt lq k) g (bsum n (fun x => pr (lq x) * loop_exp n lt lq g k x)).
Proof. cbn. eexists. split; [|reflexivity]. intros x _ _. apply mh_loop_exp. Qed.

Section chain.
Variables (n : nat) (lt lq : nat -> lval).
Hypothesis q_one : bsum n (fun y => pr (lq y)) = 1.

(** the target is invariant *)
Lemma step_invariant g : bsum n (fun x => pr (lt x) * step_exp n lt lq g x) = bsum n (fun x => pr (lt x) * g x).
Proof.
  transitivity (bsum n (fun x => bsum n (fun y => pr (lt x) * (pr (lq y) * acc lt lq x y) * g y)
                                 + (pr (lt x) * g x - bsum n (fun y => pr (lt x) * (pr (lq y) * acc lt lq x y) * g x)))).
  - apply bsum_ext. intros x _. unfold step_exp. rewrite <- bsum_scal.
    replace (pr (lt x) * g x) with (bsum n (fun y => pr (lt x) * g x * pr (lq y))).
    2:{ rewrite bsum_scal, q_one. ring. }
    transitivity (bsum n (fun y => pr (lt x) * (pr (lq y) * acc lt lq x y) * g y + (pr (lt x) * g x * pr (lq y) + (-1) * (pr (lt x) * (pr (lq y) * acc lt lq x y) * g x)))).
    { apply bsum_ext. intros y _. ring. }
    rewrite !bsum_plus, (bsum_scal n (-1) (fun y => pr (lt x) * (pr (lq y) * acc lt lq x y) * g x)). ring.
  - rewrite bsum_plus.
    replace (bsum n (fun x => pr (lt x) * g x - bsum n (fun y => pr (lt x) * (pr (lq y) * acc lt lq x y) * g x)))
      with (bsum n (fun x => pr (lt x) * g x) + (-1) * bsum n (fun x => bsum n (fun y => pr (lt x) * (pr (lq y) * acc lt lq x y) * g x))).
    2:{ rewrite <- bsum_scal, <- bsum_plus. apply bsum_ext. intros; ring. }
    rewrite (bsum_swap n n (fun x y => pr (lt x) * (pr (lq y) * acc lt lq x y) * g y)).
    replace (bsum n (fun j => bsum n (fun i => pr (lt i) * (pr (lq j) * acc lt lq i j) * g j)))
      with (bsum n (fun x => bsum n (fun y => pr (lt x) * (pr (lq y) * acc lt lq x y) * g x))); [ring|].
    apply bsum_ext. intros x _. apply bsum_ext. intros y _. now rewrite detailed_balance.
Qed.

Lemma loop_invariant g k : bsum n (fun x => pr (lt x) * loop_exp n lt lq g k x) = bsum n (fun x => pr (lt x) * g x).
Proof. induction k as [|k IH]; [reflexivity|]. cbn [loop_exp]. now rewrite step_invariant. Qed.

(** convergence: with q >= beta pi everywhere *)
Variables (Z beta : R).
Hypothesis Z_pos : 0 < Z.
Hypothesis pi_one : bsum n (fun y => pr (lt y)) = Z.
Hypothesis beta_range : 0 < beta <= 1.
Hypothesis dominated : forall y, (y < n)%nat -> beta * (pr (lt y) / Z) <= pr (lq y).

Lemma minorised x y : (x < n)%nat -> (y < n)%nat -> pr (lq x) <> 0 -> beta * (pr (lt y) / Z) <= pr (lq y) * acc lt lq x y.
Proof.
  intros Hx Hy Q. pose proof (dominated x Hx) as Dx. pose proof (dominated y Hy) as Dy.
  destruct (Req_dec (pr (lt y)) 0) as [E0|N0].
  { rewrite E0. replace (beta * (0 / Z)) with 0 by (unfold Rdiv; ring). apply Rmult_le_pos; [apply pr_nonneg|apply acc_range]. }
  unfold acc, log_alpha. destruct (lt y) as [|b]; [exfalso; apply N0; reflexivity|].
  destruct (lq x) as [|c]; [exfalso; apply Q; reflexivity|].
  destruct (lq y) as [|d].
  - cbn [pr] in *. rewrite Rmult_0_l. lra.
  - destruct (lt x) as [|a]; cbn [xsub xadd accept_prob pr] in *; [lra|].
    apply Rmin_case_strong; intros _; [lra|].
    rewrite <- exp_plus. replace (d + (b - a + (c - d))) with (b + (c + - a)) by ring. rewrite !exp_plus, exp_Ropp.
    pose proof (exp_pos a) as Ea. pose proof (exp_pos b) as Eb.
    assert (beta / Z <= exp c * / exp a).
    { apply Rmult_le_reg_r with (exp a); [assumption|]. replace (exp c * / exp a * exp a) with (exp c) by (field; lra).
      replace (beta / Z * exp a) with (beta * (exp a / Z)) by (field; lra). assumption. }
    replace (beta * (exp b / Z)) with (exp b * (beta / Z)) by (field; lra). apply Rmult_le_compat_l; lra.
Qed.

Definition pi_mean (g : nat -> R) : R := bsum n (fun y => pr (lt y) / Z * g y).

Lemma pi_mean_step g : pi_mean (step_exp n lt lq g) = pi_mean g.
Proof.
  unfold pi_mean.
  transitivity (/ Z * bsum n (fun x => pr (lt x) * step_exp n lt lq g x)); [rewrite <- bsum_scal; apply bsum_ext; intros; unfold Rdiv; ring|].
  rewrite step_invariant, <- bsum_scal. apply bsum_ext; intros; unfold Rdiv; ring.
Qed.
Lemma pi_mass : bsum n (fun y => pr (lt y) / Z) = 1.
Proof. rewrite bsum_div, pi_one. field. lra. Qed.

Lemma step_lower g lo x : (x < n)%nat -> pr (lq x) <> 0 ->
  (forall y, (y < n)%nat -> pr (lq y) <> 0 -> lo <= g y) -> beta * pi_mean g + (1 - beta) * lo <= step_exp n lt lq g x.
Proof.
  intros Hx Q Hg.
  assert (forall y, (y < n)%nat -> beta * (pr (lt y) / Z) * (g y - lo) <= pr (lq y) * (acc lt lq x y * (g y - lo) + (1 - acc lt lq x y) * (g x - lo))) as T.
  { intros y Hy. pose proof (Hg x Hx Q) as Gx. pose proof (acc_range lt lq x y) as A. pose proof (pr_nonneg (lq y)) as Py.
    pose proof (minorised x y Hx Hy Q) as M.
    destruct (Req_dec (pr (lq y)) 0) as [E|E].
    - rewrite E in *. assert (0 <= beta * (pr (lt y) / Z)).
      { apply Rmult_le_pos; [lra|]. apply Rmult_le_pos; [apply pr_nonneg|left; now apply Rinv_0_lt_compat]. }
      replace (beta * (pr (lt y) / Z)) with 0 by lra. lra.
    - pose proof (Hg y Hy E) as Gy.
      apply Rle_trans with (pr (lq y) * acc lt lq x y * (g y - lo)); [apply Rmult_le_compat_r; lra|].
      assert (0 <= pr (lq y) * ((1 - acc lt lq x y) * (g x - lo))) by (apply Rmult_le_pos; [lra|apply Rmult_le_pos; lra]). nra. }
  pose proof (bsum_le n _ _ T) as L.
  replace (bsum n (fun y => pr (lq y) * (acc lt lq x y * (g y - lo) + (1 - acc lt lq x y) * (g x - lo)))) with (step_exp n lt lq g x - lo) in L.
  2:{ unfold step_exp. transitivity (bsum n (fun y => pr (lq y) * (acc lt lq x y * g y + (1 - acc lt lq x y) * g x)) + (- lo) * bsum n (fun y => pr (lq y))).
      - rewrite q_one. ring.
      - rewrite <- bsum_scal, <- bsum_plus. apply bsum_ext. intros; ring. }
  replace (bsum n (fun y => beta * (pr (lt y) / Z) * (g y - lo))) with (beta * (pi_mean g - lo)) in L.
  2:{ unfold pi_mean. transitivity (beta * bsum n (fun y => pr (lt y) / Z * g y) + (- (beta * lo)) * bsum n (fun y => pr (lt y) / Z)).
      - rewrite pi_mass. ring.
      - rewrite <- !bsum_scal, <- bsum_plus. apply bsum_ext. intros; ring. }
  lra.
Qed.

Lemma step_exp_opp g x : step_exp n lt lq (fun y => - g y) x = - step_exp n lt lq g x.
Proof.
  unfold step_exp. replace (- bsum n (fun y => pr (lq y) * (acc lt lq x y * g y + (1 - acc lt lq x y) * g x)))
    with ((-1) * bsum n (fun y => pr (lq y) * (acc lt lq x y * g y + (1 - acc lt lq x y) * g x))) by ring.
  rewrite <- bsum_scal. apply bsum_ext. intros; ring.
Qed.
Lemma pi_mean_opp g : pi_mean (fun y => - g y) = - pi_mean g.
Proof. unfold pi_mean. replace (- bsum n (fun y => pr (lt y) / Z * g y)) with ((-1) * bsum n (fun y => pr (lt y) / Z * g y)) by ring. rewrite <- bsum_scal. apply bsum_ext. intros; ring. Qed.

Lemma step_upper g hi x : (x < n)%nat -> pr (lq x) <> 0 ->
  (forall y, (y < n)%nat -> pr (lq y) <> 0 -> g y <= hi) -> step_exp n lt lq g x <= beta * pi_mean g + (1 - beta) * hi.
Proof.
  intros Hx Q Hg. pose proof (step_lower (fun y => - g y) (- hi) x Hx Q) as L. rewrite step_exp_opp, pi_mean_opp in L.
  assert (forall y, (y < n)%nat -> pr (lq y) <> 0 -> - hi <= - g y) as H by (intros y Hy Qy; specialize (Hg y Hy Qy); lra).
  specialize (L H). lra.
Qed.

Lemma loop_bounds g lo hi : (forall y, (y < n)%nat -> pr (lq y) <> 0 -> lo <= g y <= hi) ->
  forall k, pi_mean (loop_exp n lt lq g k) = pi_mean g /\
  forall x, (x < n)%nat -> pr (lq x) <> 0 ->
    pi_mean g - (1 - beta) ^ k * (pi_mean g - lo) <= loop_exp n lt lq g k x <= pi_mean g + (1 - beta) ^ k * (hi - pi_mean g).
Proof.
  intros Hg. induction k as [|k [IM IH]].
  - split; [reflexivity|]. intros x Hx Q. cbn. specialize (Hg x Hx Q). lra.
  - cbn [loop_exp]. split; [now rewrite pi_mean_step|]. intros x Hx Q.
    pose proof (step_lower (loop_exp n lt lq g k) _ x Hx Q (fun y Hy Qy => proj1 (IH y Hy Qy))) as A.
    pose proof (step_upper (loop_exp n lt lq g k) _ x Hx Q (fun y Hy Qy => proj2 (IH y Hy Qy))) as B.
    rewrite IM in A, B. cbn [pow]. split; lra.
Qed.

Lemma chain_bound D g lo hi k : (forall y, (y < n)%nat -> pr (lq y) <> 0 -> lo <= g y <= hi) ->
  exists u, expects D (mh_chain n lt lq k) g u /\ Rabs (u - pi_mean g) <= (1 - beta) ^ k * (hi - lo).
Proof.
  intros Hg. eexists. split; [apply mh_chain_exp|].
  destruct (loop_bounds g lo hi Hg k) as [_ B].
  set (m := pi_mean g) in *. set (e := (1 - beta) ^ k) in *.
  assert (0 <= e) as He by (apply pow_le; lra).
  assert (lo <= m <= hi) as Hm.
  { unfold m, pi_mean. assert (lo = bsum n (fun y => pr (lt y) / Z * lo)) as -> by (rewrite bsum_scal_r, pi_mass; ring).
    assert (hi = bsum n (fun y => pr (lt y) / Z * hi)) as -> by (rewrite bsum_scal_r, pi_mass; ring).
    assert (forall y, 0 <= pr (lt y) / Z) as Pz.
    { intros y. apply Rmult_le_pos; [apply pr_nonneg|left; now apply Rinv_0_lt_compat]. }
    assert (forall y, (y < n)%nat -> pr (lt y) / Z = 0 \/ lo <= g y <= hi) as T.
    { intros y Hy. destruct (Req_dec (pr (lq y)) 0) as [E|E]; [left|right; now apply Hg].
      pose proof (dominated y Hy) as Dy. rewrite E in Dy. specialize (Pz y). nra. }
    split; apply bsum_le; intros y Hy; specialize (Pz y); destruct (T y Hy) as [-> |T']; nra. }
  assert (forall x, (x < n)%nat -> - (e * (hi - lo)) * pr (lq x) <= pr (lq x) * (loop_exp n lt lq g k x - m) <= e * (hi - lo) * pr (lq x)) as T.
  { intros x Hx. pose proof (pr_nonneg (lq x)) as Px. destruct (Req_dec (pr (lq x)) 0) as [E|E]; [rewrite E; lra|].
    specialize (B x Hx E). assert (e * (m - lo) <= e * (hi - lo)) by (apply Rmult_le_compat_l; lra).
    assert (e * (hi - m) <= e * (hi - lo)) by (apply Rmult_le_compat_l; lra).
    split; rewrite (Rmult_comm _ (pr (lq x))); apply Rmult_le_compat_l; lra. }
  assert (bsum n (fun x => pr (lq x) * loop_exp n lt lq g k x) - m = bsum n (fun x => pr (lq x) * (loop_exp n lt lq g k x - m))) as ->.
  { transitivity (bsum n (fun x => pr (lq x) * loop_exp n lt lq g k x) + (- m) * bsum n (fun y => pr (lq y))); [rewrite q_one; ring|].
    rewrite <- bsum_scal, <- bsum_plus. apply bsum_ext. intros; ring. }
  apply Rabs_le. split.
  - replace (- (e * (hi - lo))) with (bsum n (fun x => - (e * (hi - lo)) * pr (lq x))) by (rewrite bsum_scal, q_one; ring).
    apply bsum_le. intros x Hx. apply T, Hx.
  - replace (e * (hi - lo)) with (bsum n (fun x => e * (hi - lo) * pr (lq x))) by (rewrite bsum_scal, q_one; ring).
    apply bsum_le. intros x Hx. apply T, Hx.
Qed.
End chain.
