(** Real analysis used for the continuous leaves: improper integrals from an
    antiderivative, and the Gaussian integral. *)
From Coq Require Import Reals Lra Lia.
From Coquelicot Require Import Coquelicot.
Local Open Scope R_scope.

(** An improper integral from an antiderivative with limits at both ends. *)
Lemma RInt_gen_antideriv (f G : R -> R) l1 l2 :
  (forall a b, a <= b -> is_RInt f a b (G b - G a)) ->
  filterlim G (Rbar_locally m_infty) (locally l1) -> filterlim G (Rbar_locally p_infty) (locally l2) ->
  is_RInt_gen f (Rbar_locally m_infty) (Rbar_locally p_infty) (l2 - l1).
Proof.
  intros HI H1 H2 P [eps HP].
  assert (Rbar_locally m_infty (fun a => Rabs (G a - l1) < eps / 2 /\ a <= 0)) as [A HA].
  { apply filter_and; [|exists 0; intros; lra].
    apply (H1 (fun y => Rabs (y - l1) < eps / 2)).
    exists (mkposreal (eps / 2) ltac:(destruct eps; cbn; lra)). intros y Hy. exact Hy. }
  assert (Rbar_locally p_infty (fun b => Rabs (G b - l2) < eps / 2 /\ 0 <= b)) as [B HB].
  { apply filter_and; [|exists 0; intros; lra].
    apply (H2 (fun y => Rabs (y - l2) < eps / 2)).
    exists (mkposreal (eps / 2) ltac:(destruct eps; cbn; lra)). intros y Hy. exact Hy. }
  unfold filtermapi. apply Filter_prod with (Q := fun a => a < A) (R := fun b => B < b).
  - exists A. auto.
  - exists B. auto.
  - intros a b Ha Hb. cbn [fst snd]. destruct (HA a Ha) as [Ea Na]. destruct (HB b Hb) as [Eb Nb].
    exists (G b - G a). split; [apply HI; lra|]. apply HP.
    change (Rabs ((G b - G a) - (l2 - l1)) < eps).
    replace (G b - G a - (l2 - l1)) with ((G b - l2) + - (G a - l1)) by ring.
    eapply Rle_lt_trans; [apply Rabs_triang|]. rewrite Rabs_Ropp. lra.
Qed.

Definition gauss (x : R) : R := exp (- (x * x)).
Definition Gauss (t : R) : R := RInt gauss 0 t.

Lemma gauss_cont x : continuous gauss x.
Proof. unfold gauss. apply (ex_derive_continuous (fun x => exp (- (x * x)))). auto_derive. auto. Qed.

Lemma gauss_ex a b : ex_RInt gauss a b.
Proof. apply (ex_RInt_continuous gauss). intros. apply gauss_cont. Qed.

Lemma Gauss_RInt a b : is_RInt gauss a b (Gauss b - Gauss a).
Proof.
  unfold Gauss. replace (RInt gauss 0 b - RInt gauss 0 a) with (RInt gauss a b).
  - apply (RInt_correct gauss), gauss_ex.
  - pose proof (RInt_Chasles gauss 0 a b (gauss_ex _ _) (gauss_ex _ _)) as E.
    change (RInt gauss 0 a + RInt gauss a b = RInt gauss 0 b) in E. lra.
Qed.

Lemma Gauss_derive (t : R) : is_derive Gauss t (gauss t).
Proof.
  apply is_derive_RInt with (a := 0); [|apply gauss_cont].
  apply filter_forall. intros y. apply (RInt_correct gauss), gauss_ex.
Qed.

Definition hk (t x : R) : R := exp (- (t * t) * (1 + x * x)) / (1 + x * x).
Definition Bk (t : R) : R := RInt (hk t) 0 1.

Lemma sq1_pos x : 0 < 1 + x * x.
Proof. pose proof (Rle_0_sqr x) as H. unfold Rsqr in H. lra. Qed.

Lemma hk_derive (x t : R) : is_derive (fun u => hk u x) t (-2 * t * exp (- (t * t) * (1 + x * x))).
Proof.
  unfold hk. pose proof (sq1_pos x). auto_derive; [lra|]. field. lra.
Qed.

Lemma hk_cont t x : continuous (hk t) x.
Proof.
  pose proof (sq1_pos x). apply (ex_derive_continuous (hk t)). unfold hk. auto_derive. lra.
Qed.

Lemma hk_ex t a b : ex_RInt (hk t) a b.
Proof. apply (ex_RInt_continuous (hk t)). intros. apply hk_cont. Qed.

Lemma Bk_derive (t : R) : is_derive Bk t (-2 * gauss t * Gauss t).
Proof.
  replace (-2 * gauss t * Gauss t) with (RInt (fun x => Derive (fun u => hk u x) t) 0 1).
  - apply (is_derive_RInt_param hk 0 1 t).
    + apply filter_forall. intros y x _. eexists. apply hk_derive.
    + intros x _. apply continuity_2d_pt_ext with (f := fun u v => -2 * u * exp (- (u * u) * (1 + v * v))).
      { intros u v. symmetry. apply is_derive_unique, hk_derive. }
      apply continuity_2d_pt_mult.
      * apply continuity_2d_pt_mult; [apply continuity_2d_pt_const|apply continuity_2d_pt_id1].
      * apply continuity_1d_2d_pt_comp; [apply derivable_continuous_pt, derivable_pt_exp|].
        apply continuity_2d_pt_mult.
        -- apply continuity_2d_pt_opp, continuity_2d_pt_mult; apply continuity_2d_pt_id1.
        -- apply continuity_2d_pt_plus; [apply continuity_2d_pt_const|].
           apply continuity_2d_pt_mult; apply continuity_2d_pt_id2.
    + apply filter_forall. intros y. apply hk_ex.
  - transitivity (RInt (fun x => scal (-2 * gauss t) (scal t (gauss (t * x + 0)))) 0 1).
    + apply RInt_ext. intros x _. transitivity (-2 * t * exp (- (t * t) * (1 + x * x))); [exact (is_derive_unique (fun u => hk u x) t _ (hk_derive x t))|].
      unfold scal, gauss. cbn. unfold mult. cbn.
      replace (- (t * t) * (1 + x * x)) with (- (t * t) + - ((t * x + 0) * (t * x + 0))) by ring.
      rewrite exp_plus. ring.
    + etransitivity; [apply (RInt_scal (V := R_CompleteNormedModule) (fun x => scal t (gauss (t * x + 0))))|].
      { apply (ex_RInt_comp_lin (V := R_NormedModule) gauss t 0 0 1). apply gauss_ex. }
      pose proof (RInt_comp_lin (V := R_CompleteNormedModule) gauss t 0 0 1 (gauss_ex _ _)) as E.
      etransitivity; [apply f_equal; exact E|].
      replace (t * 0 + 0) with 0 by ring. replace (t * 1 + 0) with t by ring. reflexivity.
Qed.

Lemma Bk_0 : Bk 0 = PI / 4.
Proof.
  unfold Bk. rewrite <- atan_1. replace (atan 1) with (atan 1 - atan 0) by (rewrite atan_0; ring).
  apply is_RInt_unique. apply (is_RInt_ext (fun x => / (1 + x * x))).
  { intros x _. unfold hk. replace (- (0 * 0) * (1 + x * x)) with 0 by ring. rewrite exp_0. unfold Rdiv. symmetry. apply Rmult_1_l. }
  apply (is_RInt_derive atan (fun x => / (1 + x * x))).
  - intros x _. apply is_derive_Reals. replace (/ (1 + x * x)) with (/ (1 + x ^ 2)) by (f_equal; ring).
    apply derivable_pt_lim_atan.
  - intros x _. pose proof (sq1_pos x). apply (ex_derive_continuous (fun x => / (1 + x * x))). auto_derive. lra.
Qed.

Lemma Gauss_sq t : 0 <= t -> Gauss t * Gauss t + Bk t = PI / 4.
Proof.
  intros [Ht|<-].
  - rewrite <- Bk_0.
    transitivity (Gauss 0 * Gauss 0 + Bk 0).
    2:{ unfold Gauss. rewrite RInt_point. unfold zero. cbn. ring. }
    symmetry. apply (eq_is_derive (fun t => Gauss t * Gauss t + Bk t) 0 t); [|assumption].
    intros s _.
    change (is_derive (fun t => Gauss t * Gauss t + Bk t) s 0).
    replace 0 with (gauss s * Gauss s + Gauss s * gauss s + -2 * gauss s * Gauss s) by ring.
    apply (is_derive_plus (fun t => Gauss t * Gauss t) Bk); [|apply Bk_derive].
    apply (is_derive_mult Gauss Gauss); [apply Gauss_derive|apply Gauss_derive|].
    intros; apply Rmult_comm.
  - rewrite Bk_0. unfold Gauss. rewrite RInt_point. unfold zero. cbn. ring.
Qed.

Lemma Gauss_pos t : 0 <= t -> 0 <= Gauss t.
Proof.
  intros H. unfold Gauss. apply RInt_ge_0; [assumption|apply gauss_ex|]. intros; apply Rlt_le, exp_pos.
Qed.

Lemma Bk_bound t : 0 <= Bk t <= gauss t.
Proof.
  split.
  - unfold Bk. apply RInt_ge_0; [lra|apply hk_ex|]. intros x _. unfold hk. apply Rlt_le, Rdiv_lt_0_compat; [apply exp_pos|apply sq1_pos].
  - replace (gauss t) with (RInt (fun _ => gauss t) 0 1).
    2:{ rewrite RInt_const. unfold scal. cbn. unfold mult. cbn. ring. }
    unfold Bk. apply RInt_le; [lra|apply hk_ex|apply ex_RInt_const|].
    intros x _. unfold hk, gauss. pose proof (sq1_pos x) as H. pose proof (Rle_0_sqr x) as Hx. unfold Rsqr in Hx.
    pose proof (Rle_0_sqr t) as Ht. unfold Rsqr in Ht.
    apply (Rmult_le_reg_r (1 + x * x)); [assumption|]. unfold Rdiv. rewrite Rmult_assoc, Rinv_l, Rmult_1_r by lra.
    assert (exp (- (t * t) * (1 + x * x)) <= exp (- (t * t))).
    { destruct (Req_dec (t * t * (x * x)) 0) as [E|E].
      - right. f_equal. replace (- (t * t) * (1 + x * x)) with (- (t * t) - t * t * (x * x)) by ring. rewrite E. ring.
      - left. apply exp_increasing. pose proof (Rmult_le_pos _ _ Ht Hx). 
        replace (- (t * t) * (1 + x * x)) with (- (t * t) - t * t * (x * x)) by ring. lra. }
    pose proof (exp_pos (- (t * t))). pose proof (Rmult_le_pos (exp (- (t * t))) (x * x)). lra.
Qed.

Lemma gauss_lim : filterlim gauss (Rbar_locally p_infty) (locally 0).
Proof.
  intros P [eps HP]. exists (Rmax 1 (/ eps)). intros x Hx. apply HP.
  change (Rabs (gauss x - 0) < eps). rewrite Rminus_0_r. unfold gauss. rewrite Rabs_pos_eq by (apply Rlt_le, exp_pos).
  pose proof (Rmax_l 1 (/ eps)). pose proof (Rmax_r 1 (/ eps)). destruct eps as [e He]. cbn in *.
  rewrite exp_Ropp. assert (1 + x * x <= exp (x * x)).
  { pose proof (exp_ineq1_le (x * x)). lra. }
  apply Rle_lt_trans with (/ (x * x)).
  - apply Rinv_le_contravar; [apply Rmult_lt_0_compat; lra|lra].
  - apply Rle_lt_trans with (/ x).
    + apply Rinv_le_contravar; [lra|]. replace x with (1 * x) at 1 by ring. apply Rmult_le_compat_r; lra.
    + rewrite <- (Rinv_inv e). apply Rinv_lt_contravar; [|lra].
      apply Rmult_lt_0_compat; [now apply Rinv_0_lt_compat|lra].
Qed.

Lemma Gauss_lim_p : filterlim Gauss (Rbar_locally p_infty) (locally (sqrt PI / 2)).
Proof.
  assert (0 < PI) as Pp by apply PI_RGT_0.
  assert (sqrt (PI / 4) = sqrt PI / 2) as ES.
  { rewrite sqrt_div_alt by lra. f_equal. replace 4 with (2 * 2) by ring. apply sqrt_square. lra. }
  rewrite <- ES.
  apply (filterlim_ext_loc (fun t => sqrt (PI / 4 - Bk t))).
  - exists 0. intros t Ht. rewrite <- (Gauss_sq t) by lra.
    replace (Gauss t * Gauss t + Bk t - Bk t) with (Gauss t * Gauss t) by ring.
    apply sqrt_square, Gauss_pos. lra.
  - replace (sqrt (PI / 4)) with (sqrt (PI / 4 - 0)) by (f_equal; ring).
    apply (filterlim_comp _ _ _ (fun t => PI / 4 - Bk t) sqrt _ (locally (PI / 4 - 0))).
    + apply (filterlim_comp_2 (F := Rbar_locally p_infty) (G := locally (PI / 4)) (H := locally (-0)) (fun _ => PI / 4) (fun t => - Bk t) Rplus).
      * apply filterlim_const.
      * apply (filterlim_comp _ _ _ Bk Ropp _ (locally 0)).
        -- change (filterlim Bk (Rbar_locally p_infty) (Rbar_locally (Finite 0))).
           apply (filterlim_le_le (F := Rbar_locally p_infty) (fun _ => 0) Bk gauss (Finite 0)).
           ++ exists 0. intros; apply Bk_bound.
           ++ apply filterlim_const.
           ++ exact gauss_lim.
        -- exact (filterlim_opp (K := R_AbsRing) (V := R_NormedModule) 0).
      * exact (filterlim_plus (K := R_AbsRing) (V := R_NormedModule) (PI / 4) (-0)).
    + apply continuity_pt_filterlim. apply continuity_pt_sqrt. rewrite Rminus_0_r. lra.
Qed.

Lemma Gauss_odd t : Gauss (- t) = - Gauss t.
Proof.
  unfold Gauss.
  pose proof (RInt_comp_lin (V := R_CompleteNormedModule) gauss (-1) 0 0 t (gauss_ex _ _)) as E.
  replace (-1 * 0 + 0) with 0 in E by ring. replace (-1 * t + 0) with (- t) in E by ring. rewrite <- E.
  transitivity (RInt (V := R_CompleteNormedModule) (fun y => opp (gauss y)) 0 t).
  - apply (RInt_ext (V := R_CompleteNormedModule)). intros x _. unfold scal, opp. cbn. unfold mult. cbn. unfold gauss.
    replace ((-1 * x + 0) * (-1 * x + 0)) with (x * x) by ring. lra.
  - exact (RInt_opp (V := R_CompleteNormedModule) gauss 0 t (gauss_ex _ _)).
Qed.

Lemma Gauss_lim_m : filterlim Gauss (Rbar_locally m_infty) (locally (- (sqrt PI / 2))).
Proof.
  apply (filterlim_ext (fun t => - Gauss (- t))).
  { intros t. rewrite Gauss_odd. ring. }
  apply (filterlim_comp _ _ _ (fun t => Gauss (- t)) Ropp _ (locally (sqrt PI / 2))).
  - apply (filterlim_comp _ _ _ Ropp Gauss _ (Rbar_locally p_infty)); [|exact Gauss_lim_p].
    exact (filterlim_Rbar_opp m_infty).
  - exact (filterlim_opp (K := R_AbsRing) (V := R_NormedModule) (sqrt PI / 2)).
Qed.

(** Gluing an antiderivative at a point. *)
Lemma RInt_glue (f : R -> R) m (GL GR : R -> R) :
  (forall a b, a <= b -> b <= m -> is_RInt f a b (GL b - GL a)) ->
  (forall a b, m <= a -> a <= b -> is_RInt f a b (GR b - GR a)) -> GL m = GR m ->
  forall a b, a <= b ->
  is_RInt f a b ((if Rle_dec b m then GL b else GR b) - (if Rle_dec a m then GL a else GR a)).
Proof.
  intros HL HR E a b H. destruct (Rle_dec b m) as [Hb|Hb], (Rle_dec a m) as [Ha|Ha]; try lra.
  - now apply HL.
  - replace (GR b - GL a) with (plus (GL m - GL a) (GR b - GR m)).
    + apply (is_RInt_Chasles f a m b); [apply HL|apply HR]; lra.
    + unfold plus. cbn. rewrite E. ring.
  - apply HR; lra.
Qed.

Lemma exp_decay c m : 0 < c -> filterlim (fun t => exp (- (c * (t - m)))) (Rbar_locally p_infty) (locally 0).
Proof.
  intros Hc P [eps HP]. destruct eps as [e He]. exists (m + / (c * e)). intros x Hx. apply HP.
  change (Rabs (exp (- (c * (x - m))) - 0) < e). rewrite Rminus_0_r, Rabs_pos_eq by (apply Rlt_le, exp_pos).
  rewrite exp_Ropp. pose proof (exp_ineq1_le (c * (x - m))) as L.
  assert (/ e < c * (x - m)) as M.
  { replace (/ e) with (c * / (c * e)) by (field; lra). apply Rmult_lt_compat_l; lra. }
  pose proof (Rinv_0_lt_compat e He).
  rewrite <- (Rinv_inv e). apply Rinv_lt_contravar; [|lra].
  apply Rmult_lt_0_compat; [assumption|apply exp_pos].
Qed.

Lemma exp_decay_m c m : 0 < c -> filterlim (fun t => exp (c * (t - m))) (Rbar_locally m_infty) (locally 0).
Proof.
  intros Hc. apply (filterlim_ext (fun t => exp (- (c * ((- t) - (- m)))))).
  { intros t. f_equal. ring. }
  apply (filterlim_comp _ _ _ Ropp (fun t => exp (- (c * (t - - m)))) _ (Rbar_locally p_infty)).
  - exact (filterlim_Rbar_opp m_infty).
  - now apply exp_decay.
Qed.

(** affine images of limits *)
Lemma lim_affine (F : (R -> Prop) -> Prop) (FF : Filter F) (G : R -> R) (l k d : R) :
  filterlim G F (locally l) -> filterlim (fun t => d + k * G t) F (locally (d + k * l)).
Proof.
  intros H. apply (filterlim_comp _ _ _ G (fun y => d + k * y) _ (locally l)); [assumption|].
  apply (continuity_pt_filterlim (fun y => d + k * y) l). apply derivable_continuous_pt. apply ex_derive_Reals_0. auto_derive. auto.
Qed.

Lemma lim_loc_const (F : (R -> Prop) -> Prop) (FF : Filter F) (G : R -> R) (l : R) :
  F (fun t => G t = l) -> filterlim G F (locally l).
Proof.
  intros H. apply (filterlim_ext_loc (fun _ => l)); [|apply filterlim_const].
  revert H. apply filter_imp. auto.
Qed.
