(** The log-normal density integrates to one; its mode; the image of a normal. *)
From Coq Require Import List Arith Bool Reals Lra Lia.
From Coquelicot Require Import Coquelicot.
From Verif Require Import Base ScopeModel CircuitModel CircuitEval CircuitMarg Integral GaussInt LeafModel LeafNorm LogNormalModel.
Import ListNotations.
Local Open Scope R_scope.

Definition dens (p : lognormal) (a : R) : R := pr (ln_lp p a).

Lemma dens_out p a : a <= 0 -> dens p a = 0.
Proof. intros H. unfold dens, ln_lp, ln_supp, rlt. destruct (Rlt_dec 0 a); [lra|reflexivity]. Qed.
Lemma dens_normal p a : 0 < a -> dens p a = pr (fam_lp (FNormal (ln_loc p) (ln_log_scale p)) (ln a)) * / a.
Proof.
  intros H. unfold dens, ln_lp, ln_supp, rlt. destruct (Rlt_dec 0 a); [|lra]. unfold fam_lp. cbn [supp lp_formula pr].
  unfold ln_log_prob. unfold Rminus at 1. rewrite exp_plus, (exp_Ropp (ln a)), exp_ln by assumption. reflexivity.
Qed.
Lemma dens_nonneg p a : 0 <= dens p a. Proof. apply pr_nonneg. Qed.

Section N.
  Variable p : lognormal.
  Let m := ln_loc p.
  Let s := exp (ln_log_scale p).
  Let Hs : 0 < s. Proof. apply exp_pos. Qed.

  Lemma lp_bound y : - ((y - m) ^ 2) / (2 * s ^ 2) - y <= y - 2 * m + 2 * s ^ 2.
  Proof.
    assert (0 <= (y - m + 2 * s ^ 2) ^ 2 / (2 * s ^ 2)) as A.
    { apply Rdiv_le_0_compat; [apply pow2_ge_0|]. assert (0 < s ^ 2) by (apply pow_lt, Hs). lra. }
    replace ((y - m + 2 * s ^ 2) ^ 2 / (2 * s ^ 2)) with ((y - m) ^ 2 / (2 * s ^ 2) + 2 * (y - m) + 2 * s ^ 2) in A by (field; pose proof Hs; lra).
    unfold Rdiv in *. lra.
  Qed.

  Lemma dens_small : exists K, 0 < K /\ forall a, 0 < a -> dens p a <= K * a.
  Proof.
    exists (exp (- 2 * m + 2 * s ^ 2 - ln s - ln (sqrt (2 * PI)))). split; [apply exp_pos|].
    intros a Ha. unfold dens, ln_lp, ln_supp, rlt. destruct (Rlt_dec 0 a); [|lra]. cbn [pr].
    rewrite <- (exp_ln a) at 2 by assumption. rewrite <- exp_plus.
    assert (forall u v, u <= v -> exp u <= exp v) as M. { intros u v [H| ->]; [left; now apply exp_increasing|right; reflexivity]. }
    apply M. unfold ln_log_prob. fold m s. pose proof (lp_bound (ln a)). lra.
  Qed.

  Lemma dens_cont x : continuous (dens p) x.
  Proof.
    destruct (Rtotal_order x 0) as [H|[H|H]].
    - apply (continuous_ext_loc _ (fun _ => 0)); [|apply continuous_const].
      assert (0 < - x) as E by lra. exists (mkposreal _ E). intros y Hy. symmetry. apply dens_out.
      change (Rabs (y - x) < - x) in Hy. apply Rabs_def2 in Hy. lra.
    - subst x. destruct dens_small as (K & HK & B). unfold continuous. rewrite dens_out by lra.
      intros P [[e He] HP]. assert (0 < e / K) as E by (apply Rdiv_lt_0_compat; assumption). exists (mkposreal _ E).
      intros y Hy. apply HP. change (Rabs (y - 0) < e / K) in Hy. change (Rabs (dens p y - 0) < e). rewrite !Rminus_0_r in *.
      rewrite Rabs_pos_eq by apply dens_nonneg. destruct (Rle_dec y 0) as [Q|Q]; [rewrite dens_out; assumption|].
      apply Rle_lt_trans with (K * y); [apply B; lra|]. rewrite Rabs_pos_eq in Hy by lra.
      replace e with (K * (e / K)) by (field; lra). now apply Rmult_lt_compat_l.
    - apply (continuous_ext_loc _ (fun a => exp (ln_log_prob p a))).
      { exists (mkposreal _ H). intros y Hy. change (Rabs (y - x) < x) in Hy. apply Rabs_def2 in Hy.
        unfold dens, ln_lp, ln_supp, rlt. destruct (Rlt_dec 0 y); [reflexivity|lra]. }
      apply (ex_derive_continuous (fun a => exp (ln_log_prob p a))). unfold ln_log_prob. auto_derive. auto.
  Qed.
  Lemma dens_ex a b : ex_RInt (dens p) a b.
  Proof. apply (ex_RInt_continuous (V := R_CompleteNormedModule)). intros z _. apply dens_cont. Qed.

  (** the distribution function *)
  Definition ln_G (t : R) : R := if Rle_dec t 0 then 0 else 1/2 + normal_G m (ln_log_scale p) (ln t).

  Lemma normal_G_derive t : is_derive (normal_G m (ln_log_scale p)) t (pr (fam_lp (FNormal m (ln_log_scale p)) t)).
  Proof.
    destruct (normal_antid m (ln_log_scale p)) as (A & _ & _).
    assert (forall x, continuous (fun a => pr (fam_lp (FNormal m (ln_log_scale p)) a)) x) as C.
    { intros x. apply (ex_derive_continuous (fun a => pr (fam_lp (FNormal m (ln_log_scale p)) a))). unfold fam_lp. cbn [supp lp_formula pr]. auto_derive. auto. }
    pose proof (is_derive_RInt (fun a => pr (fam_lp (FNormal m (ln_log_scale p)) a))
      (fun b => normal_G m (ln_log_scale p) b - normal_G m (ln_log_scale p) (t - 1)) (t - 1) t) as D.
    assert (is_derive (fun b => normal_G m (ln_log_scale p) b - normal_G m (ln_log_scale p) (t - 1)) t (pr (fam_lp (FNormal m (ln_log_scale p)) t))) as D'.
    { apply D; [|apply C]. assert (0 < 1) as E by lra. exists (mkposreal _ E). intros y Hy. apply A.
      change (Rabs (y - t) < 1) in Hy. apply Rabs_def2 in Hy. lra. }
    apply (is_derive_ext (fun b => normal_G m (ln_log_scale p) b - normal_G m (ln_log_scale p) (t - 1) + normal_G m (ln_log_scale p) (t - 1))); [intros u; match goal with |- @eq _ ?x ?y => change (@eq R x y) end; ring|].
    replace (pr (fam_lp (FNormal m (ln_log_scale p)) t)) with (plus (pr (fam_lp (FNormal m (ln_log_scale p)) t)) 0) by (unfold plus; cbn; ring).
    apply (is_derive_plus (fun b => normal_G m (ln_log_scale p) b - normal_G m (ln_log_scale p) (t - 1)) (fun _ => normal_G m (ln_log_scale p) (t - 1)));
      [exact D'|apply (is_derive_const (V := R_NormedModule))].
  Qed.

  Lemma int_pos a b : 0 < a -> a <= b -> is_RInt (dens p) a b (ln_G b - ln_G a).
  Proof.
    intros Ha Hab. unfold ln_G. destruct (Rle_dec b 0); [lra|]. destruct (Rle_dec a 0); [lra|].
    apply (is_RInt_derive (fun t => 1/2 + normal_G m (ln_log_scale p) (ln t))); intros x; rewrite Rmin_left, Rmax_right by lra; intros Hx.
    - rewrite dens_normal by lra. fold m.
      replace (pr (fam_lp (FNormal m (ln_log_scale p)) (ln x)) * / x) with (plus 0 (scal (/ x) (pr (fam_lp (FNormal m (ln_log_scale p)) (ln x)))))
        by (unfold plus, scal; cbn; unfold mult; cbn; ring).
      apply (is_derive_plus (fun _ => 1/2) (fun t => normal_G m (ln_log_scale p) (ln t))); [apply (is_derive_const (V := R_NormedModule))|].
      apply (is_derive_comp (normal_G m (ln_log_scale p)) ln); [apply normal_G_derive|apply is_derive_ln; lra].
    - apply dens_cont.
  Qed.

  Lemma ln_lim0 : filterlim ln (at_right 0) (Rbar_locally m_infty).
  Proof. exact is_lim_ln_0. Qed.

  Lemma G_lim0 : filterlim ln_G (at_right 0) (locally 0).
  Proof.
    apply (filterlim_ext_loc (fun t => 1/2 + 1 * normal_G m (ln_log_scale p) (ln t))).
    { assert (0 < 1) as E by lra. exists (mkposreal _ E). intros y _ Hy. unfold ln_G. destruct (Rle_dec y 0); lra. }
    replace (locally 0) with (locally (1/2 + 1 * - (1/2))) by (f_equal; field).
    apply (lim_affine _ _ (fun t => normal_G m (ln_log_scale p) (ln t))).
    apply (filterlim_comp _ _ _ ln (normal_G m (ln_log_scale p)) _ (Rbar_locally m_infty)); [exact ln_lim0|].
    now destruct (normal_antid m (ln_log_scale p)) as (_ & L & _).
  Qed.

  Lemma int_zero b : 0 < b -> is_RInt (dens p) 0 b (ln_G b).
  Proof.
    intros Hb. pose proof (RInt_correct (dens p) 0 b (dens_ex 0 b)) as I.
    assert (RInt (dens p) 0 b = ln_G b) as E; [|now rewrite E in I].
    apply (filterlim_locally_unique (F := at_right 0) (fun a => ln_G b + -1 * ln_G a)).
    - apply (filterlim_ext_loc (fun a => RInt (dens p) 0 b + -1 * RInt (dens p) 0 a)).
      { exists (mkposreal _ Hb). intros y By Hy. change (Rabs (y - 0) < b) in By. rewrite Rminus_0_r, Rabs_pos_eq in By by lra.
        assert (is_RInt (dens p) y b (ln_G b - ln_G y)) as J by (apply int_pos; lra).
        assert (RInt (dens p) 0 y + RInt (dens p) y b = RInt (dens p) 0 b) as Ch by (apply (RInt_Chasles (dens p) 0 y b); apply dens_ex).
        rewrite (is_RInt_unique _ _ _ _ J) in Ch. lra. }
      assert (is_derive (fun a => RInt (dens p) 0 a) 0 (dens p 0)) as D.
      { apply (is_derive_RInt (dens p) (fun a => RInt (dens p) 0 a) 0 0); [|apply dens_cont].
        apply filter_forall. intros y. apply (RInt_correct (dens p)), dens_ex. }
      assert (continuous (fun a => RInt (dens p) 0 a) 0) as C by (apply (ex_derive_continuous (fun a => RInt (dens p) 0 a)); eexists; exact D).
      unfold continuous in C. rewrite (RInt_point 0 (dens p)) in C. change (@zero _) with 0 in C.
      assert (filterlim (fun a => RInt (dens p) 0 a) (at_right 0) (locally (0 : R))) as C'.
      { intros P HP. specialize (C P HP). unfold filtermap, at_right, within in *. apply (filter_imp (F := locally 0) (fun x => P (RInt (dens p) 0 x))); [auto|exact C]. }
      pose proof (lim_affine (at_right 0) _ (fun a => RInt (dens p) 0 a) 0 (-1) (RInt (dens p) 0 b) C') as Q.
      rewrite Rmult_0_r, Rplus_0_r in Q. exact Q.
    - pose proof (lim_affine (at_right 0) _ ln_G 0 (-1) (ln_G b) G_lim0) as Q.
      rewrite Rmult_0_r, Rplus_0_r in Q. exact Q.
  Qed.

  Lemma ln_antid : antid (dens p) ln_G 0 1.
  Proof.
    split; [|split].
    - assert (forall a b, a <= b -> b <= 0 -> is_RInt (dens p) a b (0 - 0)) as Z.
      { intros a b Hab Hb. replace (0 - 0) with (scal (b - a) 0) by (unfold scal; cbn; unfold mult; cbn; ring).
        apply (is_RInt_ext (fun _ => 0)); [|apply (is_RInt_const a b 0)].
        intros x. rewrite Rmin_left, Rmax_right by lra. intros Hx. symmetry. apply dens_out. lra. }
      assert (forall b, 0 <= b -> is_RInt (dens p) 0 b (ln_G b)) as Q.
      { intros b [Hb|Hb]; [now apply int_zero|]. subst b. unfold ln_G. destruct (Rle_dec 0 0); [|lra]. replace 0 with (0 - 0) at 3 by ring. apply Z; lra. }
      intros a b Hab. destruct (Rle_dec b 0) as [Hb|Hb].
      + unfold ln_G. destruct (Rle_dec b 0); [|lra]. destruct (Rle_dec a 0); [|lra]. now apply Z.
      + destruct (Rlt_dec 0 a) as [Ha|Ha]; [now apply int_pos|].
        assert (ln_G a = 0) as Ea by (unfold ln_G; destruct (Rle_dec a 0); lra). rewrite Ea.
        replace (ln_G b - 0) with (plus (0 - 0) (ln_G b)) by (unfold plus; cbn; ring).
        apply (is_RInt_Chasles (dens p) a 0 b); [apply Z|apply Q]; lra.
    - apply lim_loc_const; [apply Rbar_locally_filter|]. exists 0. intros x Hx. unfold ln_G. destruct (Rle_dec x 0); lra.
    - apply (filterlim_ext_loc (fun t => 1/2 + 1 * normal_G m (ln_log_scale p) (ln t))).
      { exists 0. intros x Hx. unfold ln_G. destruct (Rle_dec x 0); lra. }
      replace (locally 1) with (locally (1/2 + 1 * (1/2))) by (f_equal; field).
      apply (lim_affine _ _ (fun t => normal_G m (ln_log_scale p) (ln t))).
      apply (filterlim_comp _ _ _ ln (normal_G m (ln_log_scale p)) _ (Rbar_locally p_infty)); [exact is_lim_ln_p|].
      now destruct (normal_antid m (ln_log_scale p)) as (_ & _ & L).
  Qed.

  Lemma ln_norm : sums DReal (dens p) 1.
  Proof. replace 1 with (1 - 0) by ring. exact (antid_sums _ _ _ _ ln_antid). Qed.

  (** the mass of a positive interval is the normal's mass of its logarithms *)
  Lemma ln_interval a b : 0 < a -> a <= b -> exists u, is_RInt (dens p) a b u /\
    is_RInt (fun y => pr (fam_lp (FNormal m (ln_log_scale p)) y)) (ln a) (ln b) u.
  Proof.
    intros Ha Hab. exists (ln_G b - ln_G a). split; [now apply int_pos|].
    destruct (normal_antid m (ln_log_scale p)) as (A & _ & _).
    replace (ln_G b - ln_G a) with (normal_G m (ln_log_scale p) (ln b) - normal_G m (ln_log_scale p) (ln a)).
    - apply A. destruct Hab as [L| ->]; [left; now apply ln_increasing|lra].
    - unfold ln_G. destruct (Rle_dec b 0); [lra|]. destruct (Rle_dec a 0); lra.
  Qed.

  (** the mode *)
  Lemma mode_best a : dens p a <= dens p (ln_mode p) /\ (dens p a = dens p (ln_mode p) -> a = ln_mode p).
  Proof.
    assert (0 < ln_mode p) as Pm by apply exp_pos.
    assert (dens p (ln_mode p) = exp (s ^ 2 / 2 - m - ln s - ln (sqrt (2 * PI)))) as Em.
    { unfold dens, ln_lp, ln_supp, rlt. destruct (Rlt_dec 0 (ln_mode p)); [|lra]. cbn [pr]. f_equal. unfold ln_log_prob, ln_mode. rewrite ln_exp. fold m s.
      field. pose proof Hs. lra. }
    destruct (Rle_dec a 0) as [Ha|Ha].
    - rewrite (dens_out p a Ha), Em. pose proof (exp_pos (s ^ 2 / 2 - m - ln s - ln (sqrt (2 * PI)))). split; intros; lra.
    - assert (dens p a = exp (ln_log_prob p a)) as Ea by (unfold dens, ln_lp, ln_supp, rlt; destruct (Rlt_dec 0 a); [reflexivity|lra]).
      assert (ln_log_prob p a = (s ^ 2 / 2 - m - ln s - ln (sqrt (2 * PI))) - (ln a - (m - s ^ 2)) ^ 2 / (2 * s ^ 2)) as D.
      { unfold ln_log_prob. fold m s. field. pose proof Hs. lra. }
      assert (0 < 2 * s ^ 2) as P2 by (assert (0 < s ^ 2) by (apply pow_lt, Hs); lra).
      assert (0 <= (ln a - (m - s ^ 2)) ^ 2 / (2 * s ^ 2)) as Q by (apply Rdiv_le_0_compat; [apply pow2_ge_0|assumption]).
      rewrite Ea, Em, D. split.
      + destruct Q as [Q|Q]; [left; apply exp_increasing; lra|right; f_equal; lra].
      + intros E. apply exp_inv in E. assert ((ln a - (m - s ^ 2)) ^ 2 / (2 * s ^ 2) = 0) as Z by lra.
        assert ((ln a - (m - s ^ 2)) ^ 2 = 0) as Z2.
        { replace ((ln a - (m - s ^ 2)) ^ 2) with ((ln a - (m - s ^ 2)) ^ 2 / (2 * s ^ 2) * (2 * s ^ 2)) by (field; pose proof Hs; lra). rewrite Z. ring. }
        assert (ln a - (m - s ^ 2) = 0) as Z3. { destruct (Req_dec (ln a - (m - s ^ 2)) 0) as [e|ne]; [assumption|]. exfalso. now apply (pow_nonzero _ 2 ne). }
        unfold ln_mode. fold m s. rewrite <- (exp_ln a) by lra. f_equal. lra.
  Qed.
End N.

Lemma ln_leaf_norm l : leaf_norm (fun _ => DReal) (lnl_leaf l).
Proof. intros f c r _ _ _. cbn. apply ln_norm. Qed.
