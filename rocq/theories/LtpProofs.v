(** The closed forms of the leaf triple products are the integrals they stand for. *)
From Coq Require Import List Arith ZArith Bool Reals Lra Lia.
From Coquelicot Require Import Coquelicot.
From Verif Require Import Base ScopeModel CircuitModel CircuitBasics CircuitEval Integral CircuitSpec LeafModel LeafSpec LeafProofs GaussInt LeafNorm LeafTop
  SignedModel SignedSpec SignedProofs LipProofs TripleModel TripleSpec.
Import ListNotations.
Local Open Scope R_scope.

Lemma fin_triple d f1 f2 f3 M v : finite_fam f1 -> finite_fam f2 -> fits d f1 -> fits d f2 ->
  (M <= Nat.max (card f1) (card f2))%nat ->
  (forall k, (M <= k)%nat -> pr (fam_lp f1 (INR k)) = 0 \/ pr (fam_lp f2 (INR k)) = 0 \/ pr (fam_lp f3 (INR k)) = 0) ->
  bsum M (fun k => pr (fam_lp f1 (INR k)) * pr (fam_lp f2 (INR k)) * pr (fam_lp f3 (INR k))) = v ->
  sums d (fun a => pr (fam_lp f1 a) * pr (fam_lp f2 a) * pr (fam_lp f3 a)) v.
Proof.
  intros F1 F2 H1 H2 HM Z E. apply (fin_sum d _ M).
  - destruct (fits_fin2 d f1 f2 F1 H1 F2 H2) as [?|(N & HN & ?)]; [now left|right]. exists N. split; [lia|assumption].
  - intros k Hk. destruct (Z k Hk) as [->|[->| ->]]; ring.
  - exact E.
Qed.

Lemma geom_triple l1 l2 l3 : infinite_sum (fun k => pr (fam_lp (FGeometric l1) (INR k)) * pr (fam_lp (FGeometric l2) (INR k)) * pr (fam_lp (FGeometric l3) (INR k)))
  (sigmoid l1 * sigmoid l2 * sigmoid l3 / (1 - (1 - sigmoid l1) * (1 - sigmoid l2) * (1 - sigmoid l3))).
Proof.
  pose proof (sigmoid_range l1) as S1. pose proof (sigmoid_range l2) as S2. pose proof (sigmoid_range l3) as S3.
  set (p := sigmoid l1) in *. set (q := sigmoid l2) in *. set (s := sigmoid l3) in *.
  apply infinite_sum_is_series.
  apply is_series_ext with (a := fun k => (p * q * s) * ((1 - p) * (1 - q) * (1 - s)) ^ k).
  { intros k. rewrite !pr_geometric. fold p q s. match goal with |- ?a = ?b => change (@eq R a b) end. rewrite !Rpow_mult_distr. ring. }
  assert (0 < (1 - p) * (1 - q) < 1) by (split; nra).
  assert (0 < (1 - p) * (1 - q) * (1 - s) < 1) by (split; nra).
  pose proof (is_series_scal (p * q * s) _ _ (is_series_geom ((1 - p) * (1 - q) * (1 - s)) ltac:(rewrite Rabs_pos_eq; lra))) as G.
  exact G.
Qed.

Lemma uniform_triple a1 b1 a2 b2 a3 b3 : a1 < b1 -> a2 < b2 -> a3 < b3 ->
  sums DReal (fun a => pr (fam_lp (FUniform a1 b1) a) * pr (fam_lp (FUniform a2 b2) a) * pr (fam_lp (FUniform a3 b3) a))
    (Rmax (Rmin (Rmin b1 b2) b3 - Rmax (Rmax a1 a2) a3) 0 / ((b1 - a1) * (b2 - a2) * (b3 - a3))).
Proof.
  intros H1 H2 H3. set (lo := Rmax (Rmax a1 a2) a3). set (hi := Rmin (Rmin b1 b2) b3).
  assert (lo >= a1 /\ lo >= a2 /\ lo >= a3) as (A1 & A2 & A3).
  { unfold lo. pose proof (Rmax_l (Rmax a1 a2) a3). pose proof (Rmax_r (Rmax a1 a2) a3). pose proof (Rmax_l a1 a2). pose proof (Rmax_r a1 a2). lra. }
  assert (hi <= b1 /\ hi <= b2 /\ hi <= b3) as (B1 & B2 & B3).
  { unfold hi. pose proof (Rmin_l (Rmin b1 b2) b3). pose proof (Rmin_r (Rmin b1 b2) b3). pose proof (Rmin_l b1 b2). pose proof (Rmin_r b1 b2). lra. }
  assert (forall a, a1 <= a -> a2 <= a -> a3 <= a -> lo <= a) as LO by (intros; unfold lo; repeat apply Rmax_lub; assumption).
  assert (forall a, a < b1 -> a < b2 -> a < b3 -> a < hi) as HI by (intros; unfold hi; repeat apply Rmin_glb_lt; assumption).
  clearbody lo hi. destruct (Rlt_dec lo hi) as [L|L].
  - rewrite Rmax_left by lra.
    replace ((hi - lo) / ((b1 - a1) * (b2 - a2) * (b3 - a3)))
      with ((/ (b1 - a1) * / (b2 - a2) * / (b3 - a3)) * (hi - lo)) by (field; lra).
    apply box_int; [assumption| |].
    + intros a Ha. rewrite !uniform_pr by assumption. unfold rle, rlt.
      destruct (Rle_dec a1 a), (Rlt_dec a b1), (Rle_dec a2 a), (Rlt_dec a b2), (Rle_dec a3 a), (Rlt_dec a b3); lra.
    + intros a Ha. rewrite !uniform_pr by assumption. unfold rle, rlt.
      destruct (Rle_dec a1 a) as [|]; [|ring]. destruct (Rlt_dec a b1); [|ring]. destruct (Rle_dec a2 a); [|ring]. destruct (Rlt_dec a b2); [|ring]. destruct (Rle_dec a3 a); [|ring]. destruct (Rlt_dec a b3); [|ring].
      exfalso. pose proof (LO a ltac:(assumption) ltac:(assumption) ltac:(assumption)). pose proof (HI a ltac:(assumption) ltac:(assumption) ltac:(assumption)). lra.
  - rewrite Rmax_right by lra. unfold Rdiv. rewrite Rmult_0_l. apply zero_int. intros a.
    rewrite !uniform_pr by assumption. unfold rle, rlt.
    destruct (Rle_dec a1 a) as [|]; [|ring]. destruct (Rlt_dec a b1); [|ring]. destruct (Rle_dec a2 a); [|ring]. destruct (Rlt_dec a b2); [|ring]. destruct (Rle_dec a3 a); [|ring]. destruct (Rlt_dec a b3); [|ring].
    exfalso. pose proof (LO a ltac:(assumption) ltac:(assumption) ltac:(assumption)). pose proof (HI a ltac:(assumption) ltac:(assumption) ltac:(assumption)). lra.
Qed.

Lemma normal_triple m1 m2 m3 l1 l2 l3
  (t1 := 1 / exp l1 ^ 2) (t2 := 1 / exp l2 ^ 2) (t3 := 1 / exp l3 ^ 2) (tau := t1 + t2 + t3) (m := (t1 * m1 + t2 * m2 + t3 * m3) / tau) :
  sums DReal (fun a => pr (fam_lp (FNormal m1 l1) a) * pr (fam_lp (FNormal m2 l2) a) * pr (fam_lp (FNormal m3 l3) a))
    (exp (- ln (2 * PI) - (ln (exp l1) + ln (exp l2) + ln (exp l3)) - / 2 * ln tau - / 2 * (t1 * m1 ^ 2 + t2 * m2 ^ 2 + t3 * m3 ^ 2 - tau * m ^ 2))).
Proof.
  pose proof (exp_pos l1) as S1. pose proof (exp_pos l2) as S2. pose proof (exp_pos l3) as S3. pose proof PI_RGT_0 as Pp.
  assert (0 < t1) as T1 by (unfold t1; apply Rdiv_lt_0_compat; nra).
  assert (0 < t2) as T2 by (unfold t2; apply Rdiv_lt_0_compat; nra).
  assert (0 < t3) as T3 by (unfold t3; apply Rdiv_lt_0_compat; nra).
  assert (0 < tau) as Ht by (unfold tau; lra).
  set (C := exp _). set (s := / sqrt tau).
  assert (0 < sqrt tau) as Hst by now apply sqrt_lt_R0.
  assert (0 < s) as Hs by (unfold s; now apply Rinv_0_lt_compat).
  replace C with (C * 1) by ring.
  apply sums_ext with (f := fun a => C * pr (fam_lp (FNormal m (ln s)) a)); [|apply sums_scal, normal_norm].
  intros a. rewrite !normal_density, exp_ln by assumption.
  assert (0 < sqrt (2 * PI)) as Hp by (apply sqrt_lt_R0; lra).
  assert (C = / (2 * PI * exp l1 * exp l2 * exp l3 * sqrt tau) * exp (- / 2 * (t1 * m1 ^ 2 + t2 * m2 ^ 2 + t3 * m3 ^ 2 - tau * m ^ 2))) as ->.
  { assert (0 < 2 * PI) as Q0 by lra. assert (0 < 2 * PI * exp l1) as Q1 by now apply Rmult_lt_0_compat. assert (0 < 2 * PI * exp l1 * exp l2) as Q2 by now apply Rmult_lt_0_compat.
    assert (0 < 2 * PI * exp l1 * exp l2 * exp l3) as Q3 by now apply Rmult_lt_0_compat. assert (0 < 2 * PI * exp l1 * exp l2 * exp l3 * sqrt tau) as Q4 by now apply Rmult_lt_0_compat.
    unfold C. rewrite <- (exp_ln (2 * PI * exp l1 * exp l2 * exp l3 * sqrt tau)) by exact Q4.
    rewrite <- exp_Ropp, <- exp_plus. f_equal.
    rewrite (ln_mult _ (sqrt tau)), (ln_mult _ (exp l3)), (ln_mult _ (exp l2)), (ln_mult _ (exp l1)) by assumption.
    pose proof (ln_mult (sqrt tau) (sqrt tau) Hst Hst) as LL. rewrite sqrt_sqrt in LL by lra. rewrite LL. field. }
  assert (exp (- / 2 * (t1 * m1 ^ 2 + t2 * m2 ^ 2 + t3 * m3 ^ 2 - tau * m ^ 2)) * exp (- ((a - m) / s) ^ 2 / 2)
          = exp (- ((a - m1) / exp l1) ^ 2 / 2) * exp (- ((a - m2) / exp l2) ^ 2 / 2) * exp (- ((a - m3) / exp l3) ^ 2 / 2)) as EE.
  { rewrite <- !exp_plus. f_equal. unfold s.
    replace (((a - m) / / sqrt tau) ^ 2) with ((a - m) ^ 2 * (sqrt tau * sqrt tau)) by (field; lra).
    rewrite sqrt_sqrt by lra.
    replace (((a - m1) / exp l1) ^ 2) with (t1 * (a - m1) ^ 2) by (unfold t1; field; lra).
    replace (((a - m2) / exp l2) ^ 2) with (t2 * (a - m2) ^ 2) by (unfold t2; field; lra).
    replace (((a - m3) / exp l3) ^ 2) with (t3 * (a - m3) ^ 2) by (unfold t3; field; lra).
    assert (tau * m = t1 * m1 + t2 * m2 + t3 * m3) as TM by (unfold m; field; lra).
    replace (- / 2 * (t1 * m1 ^ 2 + t2 * m2 ^ 2 + t3 * m3 ^ 2 - tau * m ^ 2) + - ((a - m) ^ 2 * tau) / 2)
      with (- / 2 * (t1 * m1 ^ 2 + t2 * m2 ^ 2 + t3 * m3 ^ 2) - tau * a ^ 2 / 2 + a * (tau * m)) by field.
    rewrite TM. unfold tau. field. }
  transitivity (/ (2 * PI * exp l1 * exp l2 * exp l3 * sqrt tau) * / (s * sqrt (2 * PI)) * (exp (- / 2 * (t1 * m1 ^ 2 + t2 * m2 ^ 2 + t3 * m3 ^ 2 - tau * m ^ 2)) * exp (- ((a - m) / s) ^ 2 / 2))).
  { field. repeat split; lra. }
  rewrite EE. unfold s.
  replace (2 * PI) with (sqrt (2 * PI) * sqrt (2 * PI)) at 1 by (apply sqrt_sqrt; lra). field. repeat split; lra.
Qed.

Lemma ltp_sums d f1 f2 f3 v : fam_ok f1 = true -> fam_ok f2 = true -> fam_ok f3 = true -> fits d f1 -> fits d f2 -> fits d f3 -> exact_params3 f1 f2 f3 ->
  ltp f1 f2 f3 = Some v -> sums d (fun a => pr (fam_lp f1 a) * pr (fam_lp f2 a) * pr (fam_lp f3 a)) v.
Proof.
  intros O1 O2 O3 H1 H2 H3 EX E. assert (forall a b : R, Some a = Some b -> b = a) as SI by congruence.
  destruct f1 as [l|K z|n l|l|lr|r l|K N n|lo hi|lr|m ls|m ls], f2 as [l'|K' z'|n' l'|l'|lr'|r' l'|K' N' n'|lo' hi'|lr'|m' ls'|m' ls'];
    try discriminate;
    destruct f3 as [l3|K3 z3|n3 l3|l3|lr3|r3 l3|K3 N3 n3|lo3 hi3|lr3|m3 ls3|m3 ls3]; try discriminate; cbn [ltp] in E; cbv zeta in E.
  - apply SI in E; subst v. apply (fin_triple d _ _ _ 2); cbn; auto; [intros k Hk; left; now apply finite_out|].
    pose proof (pr_bernoulli l 0 ltac:(lia)) as A0. pose proof (pr_bernoulli l 1 ltac:(lia)) as A1.
    pose proof (pr_bernoulli l' 0 ltac:(lia)) as B0. pose proof (pr_bernoulli l' 1 ltac:(lia)) as B1.
    pose proof (pr_bernoulli l3 0 ltac:(lia)) as C0. pose proof (pr_bernoulli l3 1 ltac:(lia)) as C1.
    cbn [INR] in *. rewrite A0, A1, B0, B1, C0, C1. cbn. ring.
  - destruct (Nat.eqb_spec K K') as [<-|]; [|discriminate]. destruct (Nat.eqb_spec K K3) as [<-|]; [|discriminate]. cbn [andb] in E. apply SI in E; subst v.
    apply (fin_triple d _ _ _ K); cbn; auto; [lia|intros k Hk; left; now apply finite_out|].
    apply bsum_ext. intros k Hk. now rewrite !pr_categorical.
  - apply SI in E; subst v. apply (fin_triple d _ _ _ (S (Nat.min (Nat.min n n') n3))); auto; try exact I; [cbn; lia| |].
    + intros k Hk. destruct (Nat.le_gt_cases (S n) k); [left|right; destruct (Nat.le_gt_cases (S n') k); [left|right]]; apply finite_out; cbn; auto. lia.
    + apply bsum_ext. intros k Hk. cbn in EX. destruct EX as (X1 & X2 & X3).
      rewrite !exp_plus, !binom_pmf by (lia || assumption). now rewrite !pr_binomial by lia.
  - apply SI in E; subst v. assert (d = DNat) as -> by (destruct H1 as [-> |[_ ->]]; reflexivity).
    cbn in EX. rewrite Rmax_left by assumption. apply geom_triple.
  - destruct (Nat.eqb_spec N N') as [<-|]; [|discriminate]. destruct (Nat.eqb_spec N N3) as [<-|]; [|discriminate]. cbn [andb] in E. apply SI in E; subst v.
    cbn in O1, O2, O3. apply andb_true_iff in O1, O2, O3. destruct O1 as [A1 A2], O2 as [A3 A4], O3 as [A5 A6]. apply Nat.leb_le in A1, A2, A3, A4, A5, A6.
    apply (fin_triple d _ _ _ (S (Nat.min (Nat.min n K) (Nat.min (Nat.min n' K') (Nat.min n3 K3))))); auto; try exact I; [cbn; lia| |].
    + intros k Hk. assert (Nat.min n K < k \/ Nat.min n' K' < k \/ Nat.min n3 K3 < k)%nat as [L|[L|L]] by lia; [left|right; left|right; right]; apply pr_out; cbn [supp]; rewrite asnat_INR;
        apply andb_false_iff; right; apply Nat.leb_gt; lia.
    + apply bsum_ext. intros k Hk. rewrite !pr_hyper by lia.
      destruct (Nat.leb_spec (n + K - N) k) as [L1|L1]; cbn [andb].
      * destruct (Nat.leb_spec (n' + K' - N) k) as [L2|L2]; cbn [andb].
        -- destruct (Nat.leb_spec (n3 + K3 - N) k) as [L3|L3].
           ++ rewrite !exp_plus, !hyper_pmf by lia. reflexivity.
           ++ rewrite (ch_gt (N - K3) (n3 - k)) by lia. unfold Rdiv. ring.
        -- rewrite (ch_gt (N - K') (n' - k)) by lia. unfold Rdiv. ring.
      * rewrite (ch_gt (N - K) (n - k)) by lia. unfold Rdiv. ring.
  - apply SI in E; subst v. assert (d = DReal) as -> by (destruct H1 as [-> |[X _]]; [reflexivity|exfalso; now apply X]).
    cbn in EX, O1, O2, O3. unfold rlt in O1, O2, O3. destruct (Rlt_dec lo hi); [|discriminate]. destruct (Rlt_dec lo' hi'); [|discriminate]. destruct (Rlt_dec lo3 hi3); [|discriminate].
    rewrite (Rmax_left (hi - lo)), (Rmax_left (hi' - lo')), (Rmax_left (hi3 - lo3)) by tauto. now apply uniform_triple.
  - apply SI in E; subst v. assert (d = DReal) as -> by (destruct H1 as [-> |[X _]]; [reflexivity|exfalso; now apply X]).
    cbn in EX. destruct EX as (X1 & X2 & X3). rewrite (Rmax_left (exp ls)), (Rmax_left (exp ls')), (Rmax_left (exp ls3)) by assumption. apply normal_triple.
Qed.

Lemma cat_table_val D l f c r K p k : sleaf_fits D l -> cat_table l f c r = Some (K, p) -> (k < K)%nat -> leaf_at l f c r (INR k) = p k.
Proof.
  intros _ E Hk. destruct l as [l|sc ch rep K' w]; cbn [cat_table leaf_at] in *.
  - destruct (fl_fam l f c r); try discriminate. injection E as <- <-. now apply pr_categorical.
  - injection E as <- <-. rewrite state_of_INR. destruct (Nat.ltb_spec k K'); [reflexivity|lia].
Qed.
Lemma cat_table_out D l f c r K p k : sleaf_fits D l -> cat_table l f c r = Some (K, p) -> (K <= k)%nat -> leaf_at l f c r (INR k) = 0.
Proof.
  intros _ E Hk. destruct l as [l|sc ch rep K' w]; cbn [cat_table leaf_at] in *.
  - destruct (fl_fam l f c r) eqn:EF; try discriminate. injection E as <- <-. apply finite_out; [exact I|exact Hk].
  - injection E as <- <-. rewrite state_of_INR. destruct (Nat.ltb_spec k K'); [lia|reflexivity].
Qed.
Lemma cat_table_dom D l f c r K p : sleaf_fits D l -> (f < length (query (sl_scope l)))%nat -> (c < sl_ch l)%nat -> (r < sl_rep l)%nat ->
  cat_table l f c r = Some (K, p) ->
  D (nth f (query (sl_scope l)) 0%nat) = DNat \/ D (nth f (query (sl_scope l)) 0%nat) = DFin (map INR (seq 0 K)).
Proof.
  intros H Hf Hc Hr E. destruct l as [l|sc ch rep K' w]; cbn [cat_table sleaf_fits sl_scope sl_ch sl_rep] in *.
  - destruct (H f c r Hf Hc Hr) as [_ F]. destruct (fl_fam l f c r) eqn:EF; try discriminate. injection E as <- <-.
    refine (fits_fin _ (FCategorical _ _) I F).
  - injection E as <- <-. right. apply H, Hf.
Qed.

Lemma stp_sums D la lb lc f ca cb cc r v :
  sleaf_fits D la -> sleaf_fits D lb -> sleaf_fits D lc -> exact_leaves3 la lb lc ->
  query (sl_scope la) = query (sl_scope lb) -> query (sl_scope la) = query (sl_scope lc) -> sl_rep la = sl_rep lb -> sl_rep la = sl_rep lc ->
  (f < length (query (sl_scope la)))%nat -> (ca < sl_ch la)%nat -> (cb < sl_ch lb)%nat -> (cc < sl_ch lc)%nat -> (r < sl_rep la)%nat ->
  stp la lb lc f ca cb cc r = Some v ->
  sums (D (nth f (query (sl_scope la)) 0%nat)) (fun a => leaf_at la f ca r a * leaf_at lb f cb r a * leaf_at lc f cc r a) v.
Proof.
  intros HA HB HC EX EQ EQ' ER ER' Hf Hca Hcb Hcc Hr E.
  assert (FAM : match la, lb, lc with SFam a, SFam b, SFam c => ltp (fl_fam a f ca r) (fl_fam b f cb r) (fl_fam c f cc r) = Some v -> 
     sums (D (nth f (query (sl_scope la)) 0%nat)) (fun a => leaf_at la f ca r a * leaf_at lb f cb r a * leaf_at lc f cc r a) v | _, _, _ => True end).
  { destruct la as [la|], lb as [lb|], lc as [lc|]; try exact I. cbn [sl_scope sl_ch sl_rep leaf_at exact_leaves3 sleaf_fits] in *. intros E'.
    destruct (HA f ca r Hf Hca Hr) as [O1 F1]. rewrite ER in Hr. destruct (HB f cb r ltac:(congruence) Hcb Hr) as [O2 F2]. rewrite <- ER, ER' in Hr.
    destruct (HC f cc r ltac:(congruence) Hcc Hr) as [O3 F3]. rewrite <- ER' in Hr. rewrite <- EQ in F2. rewrite <- EQ' in F3. apply ltp_sums; auto. }
  unfold stp in E. destruct (cat_table la f ca r) as [[K1 p1]|] eqn:E1.
  - destruct (cat_table lb f cb r) as [[K2 p2]|] eqn:E2.
    + destruct (cat_table lc f cc r) as [[K3 p3]|] eqn:E3.
      * destruct (Nat.eqb_spec K1 K2) as [<-|]; [|discriminate]. destruct (Nat.eqb_spec K1 K3) as [<-|]; [|discriminate]. cbn [andb] in E. injection E as <-.
        apply (fin_sum _ _ K1).
        -- destruct (cat_table_dom D la f ca r K1 p1 HA Hf Hca Hr E1) as [->| ->]; [now left|right]. exists K1. split; [lia|reflexivity].
        -- intros k Hk. rewrite (cat_table_out D la f ca r K1 p1 k HA E1 Hk). ring.
        -- apply bsum_ext. intros k Hk. rewrite (cat_table_val D la f ca r K1 p1 k HA E1 Hk), (cat_table_val D lb f cb r K1 p2 k HB E2 Hk), (cat_table_val D lc f cc r K1 p3 k HC E3 Hk). reflexivity.
      * destruct la as [la|], lb as [lb|], lc as [lc|]; try discriminate; auto.
    + destruct la as [la|], lb as [lb|], lc as [lc|]; try discriminate; auto.
  - destruct la as [la|], lb as [lb|], lc as [lc|]; try discriminate; auto.
Qed.
