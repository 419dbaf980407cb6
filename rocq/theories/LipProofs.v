(** Inner products of leaf densities: the closed forms of leaf_inner_product are
    the integrals they stand for. *)
From Coq Require Import List Arith ZArith Bool Reals Lra Lia.
From Coquelicot Require Import Coquelicot.
From Verif Require Import Base ScopeModel CircuitModel CircuitBasics CircuitEval Integral CircuitSpec LeafModel LeafSpec LeafProofs GaussInt LeafNorm LeafTop
  SignedModel SignedSpec SignedProofs.
Import ListNotations.
Local Open Scope R_scope.

(** ** finite families *)
Lemma fin_sum d (g : R -> R) M v :
  (d = DNat \/ exists N, (M <= N)%nat /\ d = DFin (map INR (seq 0 N))) ->
  (forall k, (M <= k)%nat -> g (INR k) = 0) -> bsum M (fun k => g (INR k)) = v -> sums d g v.
Proof.
  intros [->|(N & HN & ->)] Z E.
  - now apply (sums_fin_DNat M).
  - apply sums_fin_nat. rewrite <- E. apply bsum_tail; [assumption|]. intros; apply Z; lia.
Qed.

Definition finite_fam (fm : fam) : Prop :=
  match fm with FBernoulli _ | FCategorical _ _ | FBinomial _ _ | FHyper _ _ _ => True | _ => False end.

Lemma fits_fin d fm : finite_fam fm -> fits d fm -> d = DNat \/ d = DFin (map INR (seq 0 (card fm))).
Proof. intros F [->|[_ ->]]; [right|now left]. destruct fm; try contradiction; reflexivity. Qed.
Lemma fits_fin2 d f1 f2 : finite_fam f1 -> fits d f1 -> finite_fam f2 -> fits d f2 ->
  d = DNat \/ (exists N, (Nat.max (card f1) (card f2) <= N)%nat /\ d = DFin (map INR (seq 0 N))).
Proof.
  intros F1 H1 F2 H2. destruct (fits_fin d f1 F1 H1) as [?|E1]; [now left|].
  destruct (fits_fin d f2 F2 H2) as [?|E2]; [now left|]. right. exists (card f1). split; [|assumption].
  rewrite E1 in E2. injection E2 as E2. apply (f_equal (@length R)) in E2. rewrite !map_length, !seq_length in E2. lia.
Qed.

Lemma fin_pair d f1 f2 M v : finite_fam f1 -> finite_fam f2 -> fits d f1 -> fits d f2 ->
  (M <= Nat.max (card f1) (card f2))%nat ->
  (forall k, (M <= k)%nat -> pr (fam_lp f1 (INR k)) = 0 \/ pr (fam_lp f2 (INR k)) = 0) ->
  bsum M (fun k => pr (fam_lp f1 (INR k)) * pr (fam_lp f2 (INR k))) = v ->
  sums d (fun a => pr (fam_lp f1 a) * pr (fam_lp f2 a)) v.
Proof.
  intros F1 F2 H1 H2 HM Z E. apply (fin_sum d _ M).
  - destruct (fits_fin2 d f1 f2 F1 H1 F2 H2) as [?|(N & HN & ?)]; [now left|right]. exists N. split; [lia|assumption].
  - intros k Hk. destruct (Z k Hk) as [->| ->]; ring.
  - exact E.
Qed.

Lemma binom_pmf k n p : (k <= n)%nat -> tiny <= p <= 1 - tiny ->
  exp (binom_logpmf k n p) = Binomial.C n k * p ^ k * (1 - p) ^ (n - k).
Proof.
  intros Hk [H1 H2]. pose proof tiny_pos. unfold binom_logpmf.
  rewrite !Rmax_left by lra. unfold Rminus at 1 2. rewrite !exp_plus, !lfact_exp_neg, lfact_exp, !exp_INR_mult, !exp_ln by lra.
  unfold Binomial.C. pose proof (INR_fact_neq_0 k). pose proof (INR_fact_neq_0 (n - k)). field. auto.
Qed.

Lemma hyper_pmf k K N n : (k <= n)%nat -> (k <= K)%nat -> (K <= N)%nat -> (n <= N)%nat -> (n + K - N <= k)%nat ->
  exp (hyper_logpmf k K N n) = ch K k * ch (N - K) (n - k) / ch N n.
Proof.
  intros H1 H2 H3 H4 H5. unfold hyper_logpmf.
  assert (forall a b, (b <= a)%nat -> exp (lfact a - lfact b - lfact (a - b)) = ch a b) as E.
  { intros a b Hab. unfold Rminus. rewrite !exp_plus, !lfact_exp_neg, lfact_exp. rewrite <- (ch_fact a b Hab).
    pose proof (INR_fact_neq_0 b). pose proof (INR_fact_neq_0 (a - b)). field. auto. }
  unfold Rminus at 1. rewrite !exp_plus, exp_Ropp. rewrite !E by lia. reflexivity.
Qed.

(** ** series *)
Lemma geom_pair l1 l2 : infinite_sum (fun k => pr (fam_lp (FGeometric l1) (INR k)) * pr (fam_lp (FGeometric l2) (INR k)))
  (sigmoid l1 * sigmoid l2 / (1 - (1 - sigmoid l1) * (1 - sigmoid l2))).
Proof.
  pose proof (sigmoid_range l1) as S1. pose proof (sigmoid_range l2) as S2. set (p := sigmoid l1) in *. set (q := sigmoid l2) in *.
  apply infinite_sum_is_series.
  apply is_series_ext with (a := fun k => (p * q) * ((1 - p) * (1 - q)) ^ k).
  { intros k. rewrite !pr_geometric. fold p q. match goal with |- ?a = ?b => change (@eq R a b) end. rewrite Rpow_mult_distr. ring. }
  assert (0 < (1 - p) * (1 - q) < 1) by (split; nra).
  pose proof (is_series_scal (p * q) _ _ (is_series_geom ((1 - p) * (1 - q)) ltac:(rewrite Rabs_pos_eq; lra))) as G.
  exact G.
Qed.

Lemma bessel_series a : 0 < a -> is_series (fun k => a ^ k / INR (fact k) ^ 2) (Series (fun k => a ^ k / INR (fact k) ^ 2)).
Proof.
  intros Ha. apply Series_correct.
  apply (ex_series_le (K := R_AbsRing) (V := R_CompleteNormedModule) _ (fun k => / INR (fact k) * a ^ k)).
  - intros k. change (Rabs (a ^ k / INR (fact k) ^ 2) <= / INR (fact k) * a ^ k).
    pose proof (INR_fact_lt_0 k) as Hf. pose proof (pow_lt a k Ha) as Hp.
    assert (1 <= INR (fact k)) as H1. { apply (le_INR 1). apply lt_O_fact. }
    rewrite Rabs_pos_eq.
    + unfold Rdiv. rewrite Rmult_comm. apply Rmult_le_compat_r; [lra|]. apply Rinv_le_contravar; [assumption|]. nra.
    + apply Rlt_le, Rdiv_lt_0_compat; [assumption|]. nra.
  - exists (exp a). apply infinite_sum_is_series. unfold exp. destruct (exist_exp a) as [y Hy]. exact Hy.
Qed.

Lemma poisson_pair l1 l2 : infinite_sum (fun k => pr (fam_lp (FPoisson l1) (INR k)) * pr (fam_lp (FPoisson l2) (INR k)))
  (exp (- (exp l1 + exp l2)) * bessel_i0 (2 * sqrt (exp l1 * exp l2))).
Proof.
  pose proof (exp_pos l1) as E1. pose proof (exp_pos l2) as E2. set (a := exp l1) in *. set (b := exp l2) in *.
  apply infinite_sum_is_series.
  apply is_series_ext with (a := fun k => exp (- (a + b)) * ((a * b) ^ k / INR (fact k) ^ 2)).
  { intros k. rewrite !pr_poisson. fold a b. match goal with |- ?a = ?b => change (@eq R a b) end.
    rewrite Ropp_plus_distr, exp_plus, Rpow_mult_distr. pose proof (INR_fact_neq_0 k). field. assumption. }
  unfold bessel_i0.
  assert ((2 * sqrt (a * b) / 2) ^ 2 = a * b) as ->.
  { replace (2 * sqrt (a * b) / 2) with (sqrt (a * b)) by field. apply pow2_sqrt. nra. }
  exact (is_series_scal (exp (- (a + b))) _ _ (bessel_series (a * b) ltac:(nra))).
Qed.

(** ** integrals *)
Lemma zero_int (f : R -> R) : (forall a, f a = 0) -> sums DReal f 0.
Proof.
  intros H. cbn [sums]. replace 0 with (0 - 0) by ring.
  apply (RInt_gen_antideriv f (fun _ => 0)).
  - intros a b Hab. replace (0 - 0) with (scal (b - a) 0) by (unfold scal; cbn; unfold mult; cbn; ring).
    apply (is_RInt_ext (fun _ => 0)); [|apply (is_RInt_const a b 0)]. intros; now rewrite H.
  - apply lim_loc_const; [apply Rbar_locally_filter|]. exists 0. auto.
  - apply lim_loc_const; [apply Rbar_locally_filter|]. exists 0. auto.
Qed.

(** a constant on (lo,hi), zero outside *)
Lemma box_int (f : R -> R) lo hi k : lo < hi -> (forall a, lo < a < hi -> f a = k) -> (forall a, a < lo \/ hi < a -> f a = 0) ->
  sums DReal f (k * (hi - lo)).
Proof.
  intros H F1 F0.
  apply (sums_ext DReal (fun a => (k * (hi - lo)) * pr (fam_lp (FUniform lo hi) a) + (f a - (k * (hi - lo)) * pr (fam_lp (FUniform lo hi) a)))).
  { intros; ring. }
  replace (k * (hi - lo)) with (k * (hi - lo) * 1 + 0) at 1 by ring.
  apply sums_plus; [apply sums_scal, uniform_norm, H|].
  set (g := fun a => f a - k * (hi - lo) * pr (fam_lp (FUniform lo hi) a)).
  assert (forall a, a <> lo -> a <> hi -> g a = 0) as G0.
  { intros a N1 N2. unfold g, fam_lp. cbn [supp lp_formula]. unfold rle, rlt.
    destruct (Rle_dec lo a), (Rle_dec a hi), (Rlt_dec a hi); try lra; cbn [andb pr];
      rewrite ?exp_Ropp, ?exp_ln by lra; [rewrite F1 by lra; field; lra|rewrite F0 by lra; ring|rewrite F0 by lra; ring]. }
  assert (forall a b, a <= b -> (forall x, a < x < b -> x <> lo /\ x <> hi) -> is_RInt g a b 0) as K.
  { intros a b Hab Hx. replace 0 with (scal (b - a) 0) by (unfold scal; cbn; unfold mult; cbn; ring).
    apply (is_RInt_ext (fun _ => 0)); [|apply (is_RInt_const a b 0)].
    intros x. rewrite Rmin_left, Rmax_right by assumption. intros Hx'. symmetry. apply G0; apply (Hx x Hx'). }
  assert (forall a b c, is_RInt g a b 0 -> is_RInt g b c 0 -> is_RInt g a c 0) as Ch.
  { intros a b c A B. pose proof (is_RInt_Chasles g a b c 0 0 A B) as C. change (is_RInt g a c (0 + 0)) in C. rewrite Rplus_0_r in C. exact C. }
  assert (forall a b p, a <= b -> (forall x y, a <= x -> x <= y -> y <= b -> (forall z, x < z < y -> z <> p) -> is_RInt g x y 0) -> is_RInt g a b 0) as Sp.
  { intros a b p Hab Hx. destruct (Rle_dec a p) as [H1|H1]; [destruct (Rle_dec p b) as [H2|H2]|].
    - apply (Ch a p b); apply Hx; try lra; intros z Hz; lra.
    - apply Hx; try lra. intros z Hz; lra.
    - apply Hx; try lra. intros z Hz; lra. }
  assert (forall a b, a <= b -> is_RInt g a b 0) as A.
  { intros a b Hab. apply (Sp a b lo Hab). intros x y A1 A2 A3 A4. apply (Sp x y hi A2). intros u v B1 B2 B3 B4.
    apply K; [assumption|]. intros z Hz. split; [apply A4; lra|apply B4; lra]. }
  cbn [sums]. replace 0 with (0 - 0) by ring. apply (RInt_gen_antideriv g (fun _ => 0)).
  - intros a b Hab. replace (0 - 0) with 0 by ring. now apply A.
  - apply lim_loc_const; [apply Rbar_locally_filter|]. exists 0. auto.
  - apply lim_loc_const; [apply Rbar_locally_filter|]. exists 0. auto.
Qed.

Lemma uniform_pr lo hi a : lo < hi -> pr (fam_lp (FUniform lo hi) a) = if rle lo a then if rlt a hi then / (hi - lo) else 0 else 0.
Proof.
  intros H. unfold fam_lp. cbn [supp lp_formula]. unfold rle, rlt.
  destruct (Rle_dec lo a), (Rle_dec a hi), (Rlt_dec a hi); try lra; cbn [andb pr]; rewrite ?exp_Ropp, ?exp_ln by lra; reflexivity.
Qed.

Lemma uniform_pair a1 b1 a2 b2 : a1 < b1 -> a2 < b2 ->
  sums DReal (fun a => pr (fam_lp (FUniform a1 b1) a) * pr (fam_lp (FUniform a2 b2) a))
    (Rmax (Rmin b1 b2 - Rmax a1 a2) 0 / ((b1 - a1) * (b2 - a2))).
Proof.
  intros H1 H2. destruct (Rlt_dec (Rmax a1 a2) (Rmin b1 b2)) as [L|L].
  - rewrite Rmax_left by lra.
    replace ((Rmin b1 b2 - Rmax a1 a2) / ((b1 - a1) * (b2 - a2)))
      with ((/ (b1 - a1) * / (b2 - a2)) * (Rmin b1 b2 - Rmax a1 a2)) by (field; lra).
    pose proof (Rmax_l a1 a2). pose proof (Rmax_r a1 a2). pose proof (Rmin_l b1 b2). pose proof (Rmin_r b1 b2).
    apply box_int; [assumption| |].
    + intros a Ha. rewrite !uniform_pr by assumption. unfold rle, rlt.
      destruct (Rle_dec a1 a), (Rlt_dec a b1), (Rle_dec a2 a), (Rlt_dec a b2); try lra.
    + intros a Ha. rewrite !uniform_pr by assumption. unfold rle, rlt.
      destruct (Rle_dec a1 a), (Rlt_dec a b1), (Rle_dec a2 a), (Rlt_dec a b2); try ring.
      exfalso. destruct Ha as [Ha|Ha].
      * apply (Rlt_not_le _ _ Ha). now apply Rmax_lub.
      * apply (Rlt_not_le _ _ Ha). apply Rlt_le, Rmin_glb_lt; assumption.
  - rewrite Rmax_right by lra. unfold Rdiv. rewrite Rmult_0_l. apply zero_int. intros a.
    rewrite !uniform_pr by assumption. unfold rle, rlt.
    destruct (Rle_dec a1 a), (Rlt_dec a b1), (Rle_dec a2 a), (Rlt_dec a b2); try ring.
    exfalso. apply L. apply Rle_lt_trans with a; [now apply Rmax_lub|now apply Rmin_glb_lt].
Qed.

Lemma exponential_pr lr a : pr (fam_lp (FExponential lr) a) = if rle 0 a then exp lr * exp (- (exp lr * a)) else 0.
Proof.
  unfold fam_lp. cbn [supp lp_formula]. destruct (rle 0 a); [|reflexivity]. cbn [pr]. unfold Rminus.
  rewrite exp_plus, exp_ln by apply exp_pos. reflexivity.
Qed.

Lemma exponential_pair l1 l2 :
  sums DReal (fun a => pr (fam_lp (FExponential l1) a) * pr (fam_lp (FExponential l2) a)) (exp l1 * exp l2 / (exp l1 + exp l2)).
Proof.
  pose proof (exp_pos l1) as E1. pose proof (exp_pos l2) as E2.
  set (c := exp l1 + exp l2). assert (0 < c) as Hc by (unfold c; lra).
  replace (exp l1 * exp l2 / c) with ((exp l1 * exp l2 / c) * 1) by ring.
  apply sums_ext with (f := fun a => (exp l1 * exp l2 / c) * pr (fam_lp (FExponential (ln c)) a));
    [|apply sums_scal, exponential_norm].
  intros a. rewrite !exponential_pr. rewrite exp_ln by assumption. destruct (rle 0 a); [|ring].
  unfold c at 3. replace (- ((exp l1 + exp l2) * a)) with (- (exp l1 * a) + - (exp l2 * a)) by ring.
  rewrite exp_plus. field. lra.
Qed.

Lemma laplace_pr m ls a : pr (fam_lp (FLaplace m ls) a) = / (2 * exp ls) * exp (- (/ exp ls * Rabs (a - m))).
Proof.
  pose proof (exp_pos ls) as Hs. unfold fam_lp. cbn [supp lp_formula pr]. unfold Rminus at 1.
  rewrite exp_plus, exp_Ropp, exp_ln by lra. f_equal. f_equal. unfold Rdiv. ring.
Qed.

Definition lap_value (b1 b2 d : R) : R :=
  (exp (- d / b1) + exp (- d / b2)) / (4 * (b1 + b2)) +
  (if Req_EM_T b1 b2 then exp (- d / b1) * d / (4 * b1 ^ 2) else (exp (- d / b1) - exp (- d / b2)) / (4 * (b1 - b2))).

Lemma laplace_pair_le m1 m2 l1 l2 : m1 <= m2 ->
  sums DReal (fun a => pr (fam_lp (FLaplace m1 l1) a) * pr (fam_lp (FLaplace m2 l2) a)) (lap_value (exp l1) (exp l2) (m2 - m1)).
Proof.
  intros Hm. pose proof (exp_pos l1) as B1. pose proof (exp_pos l2) as B2.
  apply (sums_ext DReal (fun a => / (2 * exp l1) * exp (- (/ exp l1 * Rabs (a - m1))) * (/ (2 * exp l2) * exp (- (/ exp l2 * Rabs (a - m2)))))).
  { intros a. now rewrite !laplace_pr. }
  set (b1 := exp l1) in *. set (b2 := exp l2) in *. clearbody b1 b2. clear l1 l2.
  set (f := fun a => / (2 * b1) * exp (- (/ b1 * Rabs (a - m1))) * (/ (2 * b2) * exp (- (/ b2 * Rabs (a - m2))))).
  set (d := m2 - m1).
  set (s := / b1 + / b2). pose proof (Rinv_0_lt_compat _ B1) as I1. pose proof (Rinv_0_lt_compat _ B2) as I2. assert (0 < s) as Hs by (unfold s; lra).
  set (k := / (4 * b1 * b2)).
  set (GL := fun t => 0 + (k * / s * exp (- d / b2)) * exp (s * (t - m1))).
  set (Mid := fun t : R => if Req_EM_T b1 b2 then k * exp (- d / b1) * (t - m1)
                           else k * / (/ b2 - / b1) * (exp (- (/ b1 * (t - m1)) - / b2 * (m2 - t)) - exp (- d / b2))).
  set (GM := fun t => k * / s * exp (- d / b2) + Mid t).
  set (GR := fun t => (GM m2 + k * / s * exp (- d / b1)) + - (k * / s * exp (- d / b1)) * exp (- (s * (t - m2)))).
  assert (f = fun a => k * (exp (- (/ b1 * Rabs (a - m1))) * exp (- (/ b2 * Rabs (a - m2))))) as EF.
  { apply functional_extensionality. intros a. unfold f, k. field. lra. }
  assert (Mid m1 = 0) as M0.
  { unfold Mid. destruct (Req_EM_T b1 b2); [ring|].
    replace (- (/ b1 * (m1 - m1)) - / b2 * (m2 - m1)) with (- d / b2) by (unfold d; field; lra). ring. }
  assert (lap_value b1 b2 d = ((GM m2 + k * / s * exp (- d / b1)) + - (k * / s * exp (- d / b1)) * 0) - (0 + (k * / s * exp (- d / b2)) * 0)) as ->.
  { unfold GM, Mid, lap_value. destruct (Req_EM_T b1 b2) as [E|E].
    - unfold k, s. rewrite <- E. fold d. field. lra.
    - replace (- (/ b1 * (m2 - m1)) - / b2 * (m2 - m2)) with (- d / b1) by (unfold d; field; lra).
      assert (b1 - b2 <> 0) by lra. unfold k, s. field. repeat split; lra. }
  cbn [sums].
  apply (RInt_gen_antideriv f (fun t => if Rle_dec t m1 then GL t else if Rle_dec t m2 then GM t else GR t)).
  - assert (forall a b : R, m1 <= a -> a <= b -> is_RInt f a b ((if Rle_dec b m2 then GM b else GR b) - (if Rle_dec a m2 then GM a else GR a))) as Right.
    { intros a b Ha Hab.
      apply (is_RInt_ext (fun x => if Rle_dec x m1 then k * (exp (- (/ b1 * (x - m1))) * exp (- (/ b2 * Rabs (x - m2)))) else f x)).
      { intros x. rewrite Rmin_left, Rmax_right by lra. intros Hx. destruct (Rle_dec x m1); [lra|reflexivity]. }
      set (f' := fun x => if Rle_dec x m1 then k * (exp (- (/ b1 * (x - m1))) * exp (- (/ b2 * Rabs (x - m2)))) else f x).
      assert (forall x, f' x = k * (exp (- (/ b1 * (x - m1))) * exp (- (/ b2 * Rabs (x - m2))))) as Ef'.
      { intros x. unfold f'. destruct (Rle_dec x m1); [reflexivity|]. rewrite EF. rewrite (Rabs_pos_eq (x - m1)) by lra. reflexivity. }
      apply (RInt_glue f' m2 GM GR); [| | |assumption].
      - clear a b Ha Hab. intros a b Hab Hb.
        apply (is_RInt_ext (fun x => k * exp (- (/ b1 * (x - m1)) - / b2 * (m2 - x)))).
        { intros x. rewrite Rmin_left, Rmax_right by lra. intros Hx. rewrite Ef'. rewrite (Rabs_left1 (x - m2)) by lra.
          rewrite <- exp_plus. f_equal. f_equal. ring. }
        apply (is_RInt_derive GM (fun x => k * exp (- (/ b1 * (x - m1)) - / b2 * (m2 - x)))).
        + intros x _. unfold GM, Mid. destruct (Req_EM_T b1 b2) as [E|E].
          * assert (- (/ b1 * (x - m1)) - / b2 * (m2 - x) = - d / b1) as -> by (rewrite <- E; unfold d; field; lra).
            auto_derive; [auto|]. unfold Rminus. ring.
          * auto_derive; [auto|]. unfold Rminus.
            assert (/ b2 + - / b1 <> 0).
            { intros Z. apply E. rewrite <- (Rinv_inv b1), <- (Rinv_inv b2). f_equal. lra. }
            assert (b1 - b2 <> 0) by lra. field. repeat split; lra.
        + intros x _. apply (ex_derive_continuous (fun x => k * exp (- (/ b1 * (x - m1)) - / b2 * (m2 - x)))). auto_derive. auto.
      - clear a b Ha Hab. intros a b Ha Hab.
        apply (is_RInt_ext (fun x => k * exp (- d / b1) * exp (- (s * (x - m2))))).
        { intros x. rewrite Rmin_left, Rmax_right by lra. intros Hx. rewrite Ef'. rewrite (Rabs_pos_eq (x - m2)) by lra.
          rewrite Rmult_assoc, <- !exp_plus. f_equal. f_equal. unfold d, s. field. lra. }
        apply (is_RInt_derive GR (fun x => k * exp (- d / b1) * exp (- (s * (x - m2))))).
        + intros x _. unfold GR. auto_derive; [auto|]. unfold Rminus. field. lra.
        + intros x _. apply (ex_derive_continuous (fun x => k * exp (- d / b1) * exp (- (s * (x - m2))))). auto_derive. auto.
      - unfold GR. replace (- (s * (m2 - m2))) with 0 by ring. rewrite exp_0. ring. }
    apply (RInt_glue f m1 GL (fun t => if Rle_dec t m2 then GM t else GR t)); [| exact Right |].
    + intros a b Hab Hb. apply (is_RInt_ext (fun x => k * exp (- d / b2) * exp (s * (x - m1)))).
      { intros x. rewrite Rmin_left, Rmax_right by lra. intros Hx. rewrite EF.
        rewrite (Rabs_left1 (x - m1)), (Rabs_left1 (x - m2)) by lra.
        rewrite Rmult_assoc, <- !exp_plus. f_equal. f_equal. unfold d, s. field. lra. }
      apply (is_RInt_derive GL (fun x => k * exp (- d / b2) * exp (s * (x - m1)))).
      * intros x _. unfold GL. auto_derive; [auto|]. unfold Rminus. field. lra.
      * intros x _. apply (ex_derive_continuous (fun x => k * exp (- d / b2) * exp (s * (x - m1)))). auto_derive. auto.
    + destruct (Rle_dec m1 m2); [|lra]. unfold GL, GM. rewrite M0. replace (s * (m1 - m1)) with 0 by ring. rewrite exp_0. ring.
  - apply (filterlim_ext_loc GL).
    { exists m1. intros x Hx. destruct (Rle_dec x m1); lra. }
    apply (lim_affine _ _ (fun t => exp (s * (t - m1)))). now apply exp_decay_m.
  - apply (filterlim_ext_loc GR).
    { exists m2. intros x Hx. destruct (Rle_dec x m1); [lra|]. destruct (Rle_dec x m2); lra. }
    apply (lim_affine _ _ (fun t => exp (- (s * (t - m2))))). now apply exp_decay.
Qed.

Lemma lap_value_sym b1 b2 d : lap_value b1 b2 d = lap_value b2 b1 d.
Proof.
  unfold lap_value. destruct (Req_EM_T b1 b2) as [->|N]; [now destruct (Req_EM_T b2 b2)|].
  destruct (Req_EM_T b2 b1) as [E|_]; [congruence|].
  f_equal; [f_equal; [ring|f_equal; ring]|].
  replace (b1 - b2) with (- (b2 - b1)) by ring. assert (b2 - b1 <> 0) by lra. field. repeat split; lra.
Qed.

Lemma laplace_pair m1 m2 l1 l2 :
  sums DReal (fun a => pr (fam_lp (FLaplace m1 l1) a) * pr (fam_lp (FLaplace m2 l2) a)) (lap_value (exp l1) (exp l2) (Rabs (m1 - m2))).
Proof.
  destruct (Rle_dec m1 m2) as [H|H].
  - rewrite Rabs_left1 by lra. replace (- (m1 - m2)) with (m2 - m1) by ring. now apply laplace_pair_le.
  - rewrite Rabs_pos_eq by lra. rewrite lap_value_sym.
    apply sums_ext with (f := fun a => pr (fam_lp (FLaplace m2 l2) a) * pr (fam_lp (FLaplace m1 l1) a)); [intros; ring|].
    apply laplace_pair_le. lra.
Qed.

Lemma normal_pair m1 m2 l1 l2 (var := exp l1 ^ 2 + exp l2 ^ 2) :
  sums DReal (fun a => pr (fam_lp (FNormal m1 l1) a) * pr (fam_lp (FNormal m2 l2) a))
    (exp (- / 2 * ln (2 * PI * var) + - (m1 - m2) ^ 2 / (2 * var))).
Proof.
  pose proof (exp_pos l1) as S1. pose proof (exp_pos l2) as S2. pose proof PI_RGT_0 as Pp.
  assert (0 < var) as Hv by (unfold var; nra).
  set (C := exp _). set (s := exp l1 * exp l2 / sqrt var).
  assert (0 < sqrt var) as Hsv by now apply sqrt_lt_R0.
  assert (0 < s) as Hs by (unfold s; apply Rdiv_lt_0_compat; nra).
  set (m := (m1 * exp l2 ^ 2 + m2 * exp l1 ^ 2) / var).
  replace C with (C * 1) by ring.
  apply sums_ext with (f := fun a => C * pr (fam_lp (FNormal m (ln s)) a)); [|apply sums_scal, normal_norm].
  intros a. rewrite !normal_density, exp_ln by assumption.
  assert (0 < sqrt (2 * PI)) as Hp by (apply sqrt_lt_R0; lra).
  assert (C = / (sqrt (2 * PI) * sqrt var) * exp (- (m1 - m2) ^ 2 / (2 * var))) as ->.
  { unfold C. rewrite exp_plus. f_equal. rewrite <- sqrt_mult by lra.
    rewrite <- (exp_ln (sqrt (2 * PI * var))) by (apply sqrt_lt_R0; nra).
    rewrite <- exp_Ropp. f_equal. rewrite <- (sqrt_sqrt (2 * PI * var)) at 1 by nra.
    rewrite ln_mult by (apply sqrt_lt_R0; nra). field. }
  assert (exp (- (m1 - m2) ^ 2 / (2 * var)) * exp (- ((a - m) / s) ^ 2 / 2)
          = exp (- ((a - m1) / exp l1) ^ 2 / 2) * exp (- ((a - m2) / exp l2) ^ 2 / 2)) as EE.
  { rewrite <- !exp_plus. f_equal. unfold s.
    replace (((a - m) / (exp l1 * exp l2 / sqrt var)) ^ 2) with ((a - m) ^ 2 * (sqrt var * sqrt var) / (exp l1 * exp l2) ^ 2) by (field; lra).
    rewrite sqrt_sqrt by lra. unfold m, var. field. repeat split; nra. }
  transitivity (/ (sqrt (2 * PI) * sqrt var) * / (s * sqrt (2 * PI)) * (exp (- (m1 - m2) ^ 2 / (2 * var)) * exp (- ((a - m) / s) ^ 2 / 2))).
  { field. repeat split; lra. }
  rewrite EE. unfold s. field. repeat split; lra.
Qed.

(** ** every supported pair *)
Lemma lip_sums d f1 f2 v : fam_ok f1 = true -> fam_ok f2 = true -> fits d f1 -> fits d f2 -> exact_params f1 f2 ->
  lip f1 f2 = Some v -> sums d (fun a => pr (fam_lp f1 a) * pr (fam_lp f2 a)) v.
Proof.
  intros O1 O2 H1 H2 EX E. assert (forall a b : R, Some a = Some b -> b = a) as SI by congruence.
  destruct f1 as [l|K z|n l|l|lr|r l|K N n|lo hi|lr|m ls|m ls], f2 as [l'|K' z'|n' l'|l'|lr'|r' l'|K' N' n'|lo' hi'|lr'|m' ls'|m' ls'];
    try discriminate; cbn [lip] in E; cbv zeta in E.
  - apply SI in E; subst v. apply (fin_pair d _ _ 2); cbn; auto; [intros k Hk; left; now apply finite_out|].
    pose proof (pr_bernoulli l 0 ltac:(lia)) as A0. pose proof (pr_bernoulli l 1 ltac:(lia)) as A1.
    pose proof (pr_bernoulli l' 0 ltac:(lia)) as B0. pose proof (pr_bernoulli l' 1 ltac:(lia)) as B1.
    cbn [INR] in *. rewrite A0, A1, B0, B1. cbn. ring.
  - destruct (Nat.eqb_spec K K') as [<-|]; [|discriminate]. apply SI in E; subst v.
    apply (fin_pair d _ _ K); cbn; auto; [lia|intros k Hk; left; now apply finite_out|].
    apply bsum_ext. intros k Hk. now rewrite !pr_categorical.
  - apply SI in E; subst v. apply (fin_pair d _ _ (S (Nat.min n n'))); auto; try exact I; [cbn; lia| |].
    + intros k Hk. destruct (Nat.le_gt_cases (S n) k); [left|right]; apply finite_out; cbn; auto. lia.
    + apply bsum_ext. intros k Hk. cbn in EX. destruct EX as [X1 X2].
      rewrite exp_plus, !binom_pmf by (lia || assumption). now rewrite !pr_binomial by lia.
  - apply SI in E; subst v. assert (d = DNat) as -> by (destruct H1 as [-> |[_ ->]]; reflexivity).
    cbn in EX. rewrite Rmax_left by assumption. apply geom_pair.
  - apply SI in E; subst v. assert (d = DNat) as -> by (destruct H1 as [-> |[_ ->]]; reflexivity). apply poisson_pair.
  - destruct (Nat.eqb_spec N N') as [<-|]; [|discriminate]. apply SI in E; subst v.
    cbn in O1, O2. apply andb_true_iff in O1, O2. destruct O1 as [A1 A2], O2 as [A3 A4]. apply Nat.leb_le in A1, A2, A3, A4.
    apply (fin_pair d _ _ (S (Nat.min (Nat.min n K) (Nat.min n' K')))); auto; try exact I; [cbn; lia| |].
    + intros k Hk. destruct (Nat.le_gt_cases k (Nat.min n K)) as [L|L]; [right|left]; apply pr_out; cbn [supp]; rewrite asnat_INR;
        apply andb_false_iff; right; apply Nat.leb_gt; lia.
    + apply bsum_ext. intros k Hk. rewrite !pr_hyper by lia.
      destruct (Nat.leb_spec (n + K - N) k) as [L1|L1]; cbn [andb].
      * destruct (Nat.leb_spec (n' + K' - N) k) as [L2|L2].
        -- rewrite exp_plus, !hyper_pmf by lia. reflexivity.
        -- rewrite (ch_gt (N - K') (n' - k)) by lia. unfold Rdiv. ring.
      * rewrite (ch_gt (N - K) (n - k)) by lia. unfold Rdiv. ring.
  - apply SI in E; subst v. assert (d = DReal) as -> by (destruct H1 as [-> |[X _]]; [reflexivity|exfalso; now apply X]).
    cbn in EX, O1, O2. unfold rlt in O1, O2. destruct (Rlt_dec lo hi); [|discriminate]. destruct (Rlt_dec lo' hi'); [|discriminate].
    rewrite (Rmax_left (hi - lo)), (Rmax_left (hi' - lo')) by tauto. now apply uniform_pair.
  - apply SI in E; subst v. assert (d = DReal) as -> by (destruct H1 as [-> |[X _]]; [reflexivity|exfalso; now apply X]).
    cbn in EX. rewrite Rmax_left by assumption. apply exponential_pair.
  - apply SI in E; subst v. assert (d = DReal) as -> by (destruct H1 as [-> |[X _]]; [reflexivity|exfalso; now apply X]).
    cbn in EX. destruct EX as (X1 & X2 & X3). rewrite !Rmax_left by assumption.
    pose proof (laplace_pair m m' ls ls') as L. unfold lap_value in L.
    destruct X3 as [<-|X3].
    + destruct (Req_EM_T (exp ls) (exp ls)) as [_|]; [|congruence].
      assert (isclose (exp ls) (exp ls) = true) as ->.
      { unfold isclose, rle. destruct (Rle_dec _ _) as [|N]; [reflexivity|]. exfalso. apply N.
        rewrite Rminus_diag_eq, Rabs_R0 by reflexivity. pose proof (Rabs_pos (exp ls)).
        assert (0 < / 10 ^ 8) by (apply Rinv_0_lt_compat; lra). assert (0 < / 10 ^ 5) by (apply Rinv_0_lt_compat; lra). nra. }
      exact L.
    + rewrite X3. destruct (Req_EM_T (exp ls) (exp ls')) as [Z|_]; [|exact L].
      exfalso. rewrite <- Z in X3. unfold isclose, rle in X3. destruct (Rle_dec _ _) as [|N]; [discriminate|]. apply N.
      rewrite Rminus_diag_eq, Rabs_R0 by reflexivity. pose proof (Rabs_pos (exp ls)).
      assert (0 < / 10 ^ 8) by (apply Rinv_0_lt_compat; lra). assert (0 < / 10 ^ 5) by (apply Rinv_0_lt_compat; lra). nra.
  - apply SI in E; subst v. assert (d = DReal) as -> by (destruct H1 as [-> |[X _]]; [reflexivity|exfalso; now apply X]).
    apply normal_pair.
Qed.

(** leaves of signed circuits *)
Definition leaf_at (l : sleaf) (f c r : nat) (a : R) : R :=
  match l with
  | SFam l => pr (fam_lp (fl_fam l f c r) a)
  | SSC _ _ _ K w => match state_of K a with Some k => w f c r k | None => 0 end
  end.

Lemma state_of_INR K k : state_of K (INR k) = if Nat.ltb k K then Some k else None.
Proof. unfold state_of. now rewrite asnat_INR. Qed.

Lemma slip_sums D la lb f ca cb r v :
  sleaf_fits D la -> sleaf_fits D lb -> exact_leaves la lb -> query (sl_scope la) = query (sl_scope lb) -> sl_rep la = sl_rep lb ->
  (f < length (query (sl_scope la)))%nat -> (ca < sl_ch la)%nat -> (cb < sl_ch lb)%nat -> (r < sl_rep la)%nat ->
  slip la lb f ca cb r = Some v ->
  sums (D (nth f (query (sl_scope la)) 0%nat)) (fun a => leaf_at la f ca r a * leaf_at lb f cb r a) v.
Proof.
  intros HA HB EX EQ ER Hf Hca Hcb Hr E.
  destruct la as [la|sa na ra Ka wa], lb as [lb|sb nb rb Kb wb]; cbn [sl_scope sl_ch sl_rep slip leaf_at exact_leaves sleaf_fits] in *.
  - rewrite ER in Hr. destruct (HB f cb r ltac:(congruence) Hcb Hr) as [O2 F2]. rewrite <- ER in Hr.
    destruct (HA f ca r Hf Hca Hr) as [O1 F1]. rewrite <- EQ in F2. apply lip_sums; auto.
  - destruct (fl_fam la f ca r) as [|K g| | | | | | | | |] eqn:Ef; try discriminate.
    destruct (Nat.eqb_spec Kb K) as [->|]; [|discriminate]. injection E as <-.
    destruct HB as [_ HB]. specialize (HB f ltac:(congruence)). rewrite <- EQ in HB. rewrite HB. apply sums_fin_nat.
    apply bsum_ext. intros k Hk. rewrite pr_categorical, state_of_INR by assumption.
    destruct (Nat.ltb_spec k K); [reflexivity|lia].
  - destruct (fl_fam lb f cb r) as [|K g| | | | | | | | |] eqn:Ef; try discriminate.
    destruct (Nat.eqb_spec Ka K) as [->|]; [|discriminate]. injection E as <-.
    destruct HA as [_ HA]. rewrite (HA f Hf). apply sums_fin_nat.
    apply bsum_ext. intros k Hk. rewrite pr_categorical, state_of_INR by assumption.
    destruct (Nat.ltb_spec k K); [reflexivity|lia].
  - destruct (Nat.eqb_spec Ka Kb) as [->|]; [|discriminate]. injection E as <-.
    destruct HA as [_ HA]. rewrite (HA f Hf). apply sums_fin_nat. apply bsum_ext. intros k Hk. rewrite state_of_INR.
    destruct (Nat.ltb_spec k Kb); [reflexivity|lia].
Qed.
