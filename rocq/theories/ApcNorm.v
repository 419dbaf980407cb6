(** Moments of the normal density. *)
From Coq Require Import List Arith ZArith Bool Reals Lra Lia.
From Coquelicot Require Import Coquelicot.
From Verif Require Import Base ScopeModel CircuitModel CircuitBasics CircuitEval Integral GaussInt LeafModel LeafProofs LeafSpec LeafNorm ApcModel ApcSpec.
Import ListNotations.
Local Open Scope R_scope.

Lemma lim0 (g : R -> R) m C D : 0 < D -> (forall t, D <= Rabs (t - m) -> Rabs (g t) <= C / Rabs (t - m)) ->
  filterlim g (Rbar_locally p_infty) (locally 0) /\ filterlim g (Rbar_locally m_infty) (locally 0).
Proof.
  intros HD H.
  assert (forall e, 0 < e -> forall t, D <= Rabs (t - m) -> (Rabs C + 1) / e < Rabs (t - m) -> Rabs (g t) < e) as K.
  { intros e He t T1 T2. pose proof (H t T1) as E. assert (0 < Rabs (t - m)) as P by lra.
    apply Rle_lt_trans with (1 := E). apply (Rmult_lt_reg_r (Rabs (t - m))); [exact P|].
    unfold Rdiv. rewrite Rmult_assoc, Rinv_l by lra. pose proof (Rle_abs C).
    apply (Rmult_lt_compat_r e) in T2; [|exact He]. unfold Rdiv in T2. rewrite Rmult_assoc, Rinv_l in T2 by lra. lra. }
  split; intros P [e He]; cbn.
  - exists (m + D + (Rabs C + 1) / e). intros x Hx. apply He. unfold ball. cbn. unfold AbsRing_ball, abs, minus, plus, opp. cbn.
    replace (g x + - 0) with (g x) by ring. pose proof (cond_pos e). pose proof (Rabs_pos C).
    assert (0 < (Rabs C + 1) / e) by (apply Rdiv_lt_0_compat; lra).
    apply K; [assumption| |]; rewrite (Rabs_right (x - m)) by lra; lra.
  - exists (m - D - (Rabs C + 1) / e). intros x Hx. apply He. unfold ball. cbn. unfold AbsRing_ball, abs, minus, plus, opp. cbn.
    replace (g x + - 0) with (g x) by ring. pose proof (cond_pos e). pose proof (Rabs_pos C).
    assert (0 < (Rabs C + 1) / e) by (apply Rdiv_lt_0_compat; lra).
    apply K; [assumption| |]; rewrite (Rabs_left (x - m)) by lra; lra.
Qed.

Lemma sums_eq d g u v : u = v -> sums d g u -> sums d g v.
Proof. now intros ->. Qed.

Section N.
  Variables (m ls : R).
  Let s := exp ls.
  Let p a := dens (FNormal m ls) a.

  Lemma s_pos : 0 < s. Proof. apply exp_pos. Qed.
  Lemma p_eq a : p a = exp (- ((a - m) / s) ^ 2 / 2) / (s * sqrt (2 * PI)).
  Proof. apply normal_density. Qed.
  Lemma c_pos : 0 < s * sqrt (2 * PI).
  Proof. apply Rmult_lt_0_compat; [apply s_pos|]. apply sqrt_lt_R0. pose proof PI_RGT_0. lra. Qed.

  (** exp(-u^2/2) <= 2/u^2 *)
  Lemma decay u : u <> 0 -> exp (- u ^ 2 / 2) <= 2 / u ^ 2.
  Proof.
    intros Hu. assert (0 < u ^ 2) as P by (apply pow2_gt_0; exact Hu).
    replace (- u ^ 2 / 2) with (- (u ^ 2 / 2)) by field. rewrite exp_Ropp.
    replace (2 / u ^ 2) with (/ (u ^ 2 / 2)) by (field; lra). apply Rinv_le_contravar; [lra|].
    pose proof (exp_ineq1 (u ^ 2 / 2)). lra.
  Qed.

  Lemma p_pos a : 0 < p a.
  Proof. rewrite p_eq. apply Rdiv_lt_0_compat; [apply exp_pos|apply c_pos]. Qed.

  Lemma p_bound t : t <> m -> p t <= 2 * s ^ 2 / (s * sqrt (2 * PI)) / (t - m) ^ 2.
  Proof.
    intros H. rewrite p_eq. pose proof s_pos. pose proof c_pos.
    assert ((t - m) / s <> 0) as U. { unfold Rdiv. apply Rmult_integral_contrapositive. split; [lra|]. apply Rinv_neq_0_compat. lra. }
    pose proof (decay _ U) as E. assert (0 < (t - m) ^ 2) by (apply pow2_gt_0; lra).
    replace (2 * s ^ 2 / (s * sqrt (2 * PI)) / (t - m) ^ 2) with (2 / ((t - m) / s) ^ 2 / (s * sqrt (2 * PI))).
    - unfold Rdiv at 1 4. apply Rmult_le_compat_r; [|exact E]. left. now apply Rinv_0_lt_compat.
    - assert (sqrt (2 * PI) <> 0). { intros Q. rewrite Q in *. lra. } field. repeat split; lra.
  Qed.

  Lemma p_deriv t : is_derive p t (- ((t - m) / s ^ 2) * p t).
  Proof.
    apply (is_derive_ext (fun a => exp (- ((a - m) / s) ^ 2 / 2) / (s * sqrt (2 * PI)))); [intros; symmetry; apply p_eq|].
    rewrite p_eq. pose proof s_pos. pose proof c_pos. assert (sqrt (2 * PI) <> 0). { intros Q. rewrite Q in *. lra. }
    auto_derive; [auto|].
    replace (- ((t + - m) * / s * ((t + - m) * / s * 1)) * / 2) with (- ((t - m) / s) ^ 2 / 2) by (field; lra).
    set (E := exp _). field. split; [assumption|lra].
  Qed.

  Lemma p_cont t : continuous p t.
  Proof. apply (ex_derive_continuous p). eexists. apply p_deriv. Qed.

  Lemma mom1 : sums DReal (fun a => (a - m) * p a) 0.
  Proof.
    pose proof s_pos as Hs. pose proof c_pos as Hc.
    replace 0 with (0 - 0) by ring. apply (antid_sums _ (fun t => - (s ^ 2) * p t)).
    assert (forall t, s <= Rabs (t - m) -> Rabs (- s ^ 2 * p t) <= (s ^ 2 * (2 * s ^ 2 / (s * sqrt (2 * PI))) / s) / Rabs (t - m)) as B.
    { intros t Ht. assert (t <> m) as N. { intros ->. rewrite Rminus_eq_0, Rabs_R0 in Ht. lra. }
      pose proof (p_bound t N) as E. pose proof (p_pos t) as P.
      rewrite Rabs_mult, Rabs_Ropp, (Rabs_right (s ^ 2)), (Rabs_right (p t)) by (try (apply Rle_ge; apply pow_le); lra).
      assert (0 < Rabs (t - m)) as A by lra.
      replace ((t - m) ^ 2) with (Rabs (t - m) * Rabs (t - m)) in E by (rewrite <- Rabs_mult, Rabs_right; [ring|nra]).
      set (A0 := 2 * s ^ 2 / (s * sqrt (2 * PI))) in *.
      assert (0 < A0). { unfold A0. apply Rdiv_lt_0_compat; [nra|assumption]. }
      apply Rle_trans with (s ^ 2 * (A0 / (Rabs (t - m) * Rabs (t - m)))).
      - apply Rmult_le_compat_l; [nra|exact E].
      - replace (s ^ 2 * A0 / s / Rabs (t - m)) with (s ^ 2 * (A0 / (s * Rabs (t - m)))) by (field; lra).
        apply Rmult_le_compat_l; [nra|]. unfold Rdiv. apply Rmult_le_compat_l; [lra|].
        apply Rinv_le_contravar; [nra|]. apply Rmult_le_compat_r; lra. }
    destruct (lim0 _ m _ s Hs B) as [L1 L2]. split; [|split; assumption].
    intros a b _. apply (is_RInt_derive (fun t => - s ^ 2 * p t) (fun a => (a - m) * p a)).
    - intros x _. replace ((x - m) * p x) with (- s ^ 2 * (- ((x - m) / s ^ 2) * p x)) by (field; lra).
      apply (is_derive_scal p). apply p_deriv.
    - intros x _. apply (continuous_mult (fun a => a - m) p); [|apply p_cont].
      apply (ex_derive_continuous (fun a => a - m)). auto_derive. auto.
  Qed.

  Lemma mom2 : sums DReal (fun a => (a - m) ^ 2 * p a) (s ^ 2).
  Proof.
    pose proof s_pos as Hs. pose proof c_pos as Hc.
    apply (sums_ext DReal (fun a => ((a - m) ^ 2 * p a - s ^ 2 * p a) + s ^ 2 * p a)); [intros; ring|].
    apply (sums_eq _ _ (0 + s ^ 2 * 1)); [ring|].
    apply sums_plus; [|apply sums_scal, normal_norm].
    replace 0 with (0 - 0) by ring. apply (antid_sums _ (fun t => - (s ^ 2) * ((t - m) * p t))).
    assert (forall t, s <= Rabs (t - m) -> Rabs (- s ^ 2 * ((t - m) * p t)) <= (s ^ 2 * (2 * s ^ 2 / (s * sqrt (2 * PI)))) / Rabs (t - m)) as B.
    { intros t Ht. assert (t <> m) as N. { intros ->. rewrite Rminus_eq_0, Rabs_R0 in Ht. lra. }
      pose proof (p_bound t N) as E. pose proof (p_pos t) as P.
      rewrite !Rabs_mult, Rabs_Ropp, (Rabs_right (s ^ 2)), (Rabs_right (p t)) by (try (apply Rle_ge; apply pow_le); lra).
      assert (0 < Rabs (t - m)) as A by lra.
      replace ((t - m) ^ 2) with (Rabs (t - m) * Rabs (t - m)) in E by (rewrite <- Rabs_mult, Rabs_right; [ring|nra]).
      set (A0 := 2 * s ^ 2 / (s * sqrt (2 * PI))) in *.
      replace (s ^ 2 * A0 / Rabs (t - m)) with (s ^ 2 * (Rabs (t - m) * (A0 / (Rabs (t - m) * Rabs (t - m))))) by (field; lra).
      apply Rmult_le_compat_l; [nra|]. apply Rmult_le_compat_l; [lra|exact E]. }
    destruct (lim0 _ m _ s Hs B) as [L1 L2]. split; [|split; assumption].
    intros a b _. apply (is_RInt_derive (fun t => - s ^ 2 * ((t - m) * p t)) (fun a => (a - m) ^ 2 * p a - s ^ 2 * p a)).
    - intros x _. replace ((x - m) ^ 2 * p x - s ^ 2 * p x) with (- s ^ 2 * (1 * p x + (x - m) * (- ((x - m) / s ^ 2) * p x))) by (field; lra).
      apply (is_derive_scal (fun t => (t - m) * p t)).
      apply (is_derive_mult (fun t => t - m) p); [|apply p_deriv|exact Rmult_comm].
      auto_derive; [auto|ring].
    - intros x _. apply (continuous_minus (fun a => (a - m) ^ 2 * p a) (fun a => s ^ 2 * p a)).
      + apply (continuous_mult (fun a => (a - m) ^ 2) p); [|apply p_cont].
        apply (ex_derive_continuous (fun a => (a - m) ^ 2)). auto_derive. auto.
      + apply (continuous_scal_r (s ^ 2) p). apply p_cont.
  Qed.

  Lemma normal_mean : mean_of (FNormal m ls) m.
  Proof.
    unfold mean_of. apply (sums_ext _ (fun a => (a - m) * p a + m * p a)); [intros; unfold p; ring|].
    apply (sums_eq _ _ (0 + m * 1)); [ring|]. apply sums_plus; [exact mom1|]. apply sums_scal, normal_norm.
  Qed.

  Lemma normal_var : var_of (FNormal m ls) (s ^ 2).
  Proof. exists m. split; [apply normal_mean|exact mom2]. Qed.

  Lemma normal_kl : kl_of (FNormal m ls) (FNormal 0 0) (1 / 2 * (m ^ 2 + s ^ 2 - 1 - 2 * ls)).
  Proof.
    unfold kl_of. pose proof s_pos as Hs.
    apply (sums_ext _ (fun a => (- / (2 * s ^ 2) + 1 / 2) * ((a - m) ^ 2 * p a) + (m * ((a - m) * p a) + (m ^ 2 / 2 - ls) * p a))).
    - intros a. fold (p a).
      replace (ln (p a / dens (FNormal 0 0) a)) with (- (a - m) ^ 2 / (2 * s ^ 2) - ls + a ^ 2 / 2); [field; lra|].
      unfold p, dens, fam_lp. cbn [supp lp_formula pr]. unfold Rdiv at 3. rewrite <- exp_Ropp, <- exp_plus, ln_exp, !ln_exp.
      fold s. rewrite exp_0. field. lra.
    - replace (1 / 2 * (m ^ 2 + s ^ 2 - 1 - 2 * ls)) with ((- / (2 * s ^ 2) + 1 / 2) * s ^ 2 + (m * 0 + (m ^ 2 / 2 - ls) * 1)) by (field; lra).
      apply sums_plus; [apply sums_scal, mom2|]. apply sums_plus; apply sums_scal; [exact mom1|apply normal_norm].
  Qed.

  Lemma normal_mode : is_mode (FNormal m ls) m.
  Proof.
    split; [exact Logic.I|]. intros b _. fold (p b) (p m). rewrite !p_eq. pose proof c_pos. pose proof s_pos.
    unfold Rdiv at 1 4. apply Rmult_le_compat_r; [left; now apply Rinv_0_lt_compat|].
    replace ((m - m) / s) with 0 by (field; lra). pose proof (pow2_ge_0 ((b - m) / s)).
    destruct (Req_dec (((b - m) / s) ^ 2) 0) as [E|E]; [rewrite E; right; f_equal; lra|]. left. apply exp_increasing. lra.
  Qed.
End N.
