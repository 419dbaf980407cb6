(** Interval evidence: proofs. *)
From Coq Require Import List Arith ZArith Bool Reals Lra Lia Permutation.
From Coquelicot Require Import Coquelicot.
From Verif Require Import Base ScopeModel ScopeProofs CircuitModel CircuitBasics CircuitEval Integral CircuitMarg CellEval SampleProofs GaussInt LeafModel LeafSpec LeafProofs LeafNorm LeafTop IvModel IvSpec.
Import ListNotations.
Local Open Scope R_scope.

Lemma rle_spec a b : rle a b = true <-> a <= b.
Proof. unfold rle. destruct (Rle_dec a b); split; intros; try lra; try discriminate; auto. Qed.
Lemma rle_false a b : rle a b = false <-> b < a.
Proof. unfold rle. destruct (Rle_dec a b); split; intros; try lra; try discriminate; auto. Qed.

(** boolean membership *)
Definition aboveb (lo : fl) (a : R) : bool := match lo with Nan | Minf => true | Num x => rle x a | Pinf => false end.
Definition belowb (hi : fl) (a : R) : bool := match hi with Nan | Pinf => true | Num x => rle a x | Minf => false end.
Definition insideb (b : fl * fl) (a : R) : bool := aboveb (fst b) a && belowb (snd b) a.

Lemma insideb_spec b a : insideb b a = true <-> inside b a.
Proof.
  unfold insideb, inside. rewrite andb_true_iff. destruct b as [lo hi]; cbn [fst snd].
  assert (aboveb lo a = true <-> above lo a) as A by (destruct lo; cbn; rewrite ?rle_spec; split; intros; try discriminate; tauto).
  assert (belowb hi a = true <-> below hi a) as B by (destruct hi; cbn; rewrite ?rle_spec; split; intros; try discriminate; tauto).
  tauto.
Qed.

Lemma ind_if (b : bool) (P : Prop) (v : R) : (b = true <-> P) -> ind P v (if b then v else 0).
Proof. intros H. split; intros HP; destruct b; try reflexivity; exfalso; [apply H in HP; discriminate|apply HP; now apply H]. Qed.

Lemma box_mass_if d g b p : sums d (fun a => if insideb b a then g a else 0) p -> box_mass d g b p.
Proof. intros H. eexists. split; [|exact H]. intros a. apply ind_if, insideb_spec. Qed.

(** ** integrals over an interval *)
Lemma antid_left f G l1 l2 lo : antid f G l1 l2 ->
  antid (fun a => if rle lo a then f a else 0) (fun t => G (Rmax lo t)) (G lo) l2.
Proof.
  intros (A & B & C). split; [|split].
  - intros a b Hab.
    pose proof (RInt_glue (fun a => if rle lo a then f a else 0) lo (fun _ => G lo) G) as K.
    assert (is_RInt (fun a => if rle lo a then f a else 0) a b
      ((if Rle_dec b lo then G lo else G b) - (if Rle_dec a lo then G lo else G a))) as K2.
    { apply K; auto.
      - intros a' b' H1 H2. replace (G lo - G lo) with (scal (b' - a') 0) by (unfold scal; cbn; unfold mult; cbn; ring).
        apply (is_RInt_ext (fun _ => 0)); [|apply (is_RInt_const a' b' 0)].
        intros x. rewrite Rmin_left, Rmax_right by lra. intros Hx. unfold rle. destruct (Rle_dec lo x); [lra|reflexivity].
      - intros a' b' H1 H2. apply (is_RInt_ext f); [|now apply A].
        intros x. rewrite Rmin_left, Rmax_right by lra. intros Hx. unfold rle. destruct (Rle_dec lo x); [reflexivity|lra]. }
    replace (G (Rmax lo b)) with (if Rle_dec b lo then G lo else G b).
    2:{ destruct (Rle_dec b lo); f_equal; [rewrite Rmax_left|rewrite Rmax_right]; lra. }
    replace (G (Rmax lo a)) with (if Rle_dec a lo then G lo else G a); [exact K2|].
    destruct (Rle_dec a lo); f_equal; [rewrite Rmax_left|rewrite Rmax_right]; lra.
  - apply lim_loc_const; [apply Rbar_locally_filter|]. exists lo. intros x Hx. rewrite Rmax_left by lra. reflexivity.
  - apply (filterlim_ext_loc G); [|exact C]. exists lo. intros x Hx. rewrite Rmax_right by lra. reflexivity.
Qed.

Lemma antid_right f G l1 l2 hi : antid f G l1 l2 ->
  antid (fun a => if rle a hi then f a else 0) (fun t => G (Rmin t hi)) l1 (G hi).
Proof.
  intros (A & B & C). split; [|split].
  - intros a b Hab.
    pose proof (RInt_glue (fun a => if rle a hi then f a else 0) hi G (fun _ => G hi)) as K.
    assert (is_RInt (fun a => if rle a hi then f a else 0) a b
      ((if Rle_dec b hi then G b else G hi) - (if Rle_dec a hi then G a else G hi))) as K2.
    { apply K; auto.
      - intros a' b' H1 H2. apply (is_RInt_ext f); [|now apply A].
        intros x. rewrite Rmin_left, Rmax_right by lra. intros Hx. unfold rle. destruct (Rle_dec x hi); [reflexivity|lra].
      - intros a' b' H1 H2. replace (G hi - G hi) with (scal (b' - a') 0) by (unfold scal; cbn; unfold mult; cbn; ring).
        apply (is_RInt_ext (fun _ => 0)); [|apply (is_RInt_const a' b' 0)].
        intros x. rewrite Rmin_left, Rmax_right by lra. intros Hx. unfold rle. destruct (Rle_dec x hi); [lra|reflexivity]. }
    replace (G (Rmin b hi)) with (if Rle_dec b hi then G b else G hi).
    2:{ destruct (Rle_dec b hi); f_equal; [rewrite Rmin_left|rewrite Rmin_right]; lra. }
    replace (G (Rmin a hi)) with (if Rle_dec a hi then G a else G hi); [exact K2|].
    destruct (Rle_dec a hi); f_equal; [rewrite Rmin_left|rewrite Rmin_right]; lra.
  - apply (filterlim_ext_loc G); [|exact B]. exists hi. intros x Hx. rewrite Rmin_left by lra. reflexivity.
  - apply lim_loc_const; [apply Rbar_locally_filter|]. exists hi. intros x Hx. rewrite Rmin_right by lra. reflexivity.
Qed.

Lemma antid_zero : antid (fun _ => 0) (fun _ => 0) 0 0.
Proof.
  split; [|split]; try apply filterlim_const.
  intros a b _. replace (0 - 0) with (scal (b - a) 0) by (unfold scal; cbn; unfold mult; cbn; ring). apply (is_RInt_const a b 0).
Qed.

Lemma antid_mono f G l1 l2 : antid f G l1 l2 -> (forall a, 0 <= f a) -> forall a b, a <= b -> G a <= G b.
Proof.
  intros (A & _) Hf a b Hab. specialize (A a b Hab).
  assert (0 <= G b - G a); [|lra].
  rewrite <- (is_RInt_unique _ _ _ _ A). apply RInt_ge_0; auto. eexists; exact A.
Qed.

(** value of an antiderivative at an extended bound *)
Definition Gx (G : R -> R) (l1 l2 : R) (a : fl) : R := match a with Num x => G x | Minf => l1 | _ => l2 end.

Lemma antid_lim_bounds f G l1 l2 : antid f G l1 l2 -> (forall a, 0 <= f a) -> forall a, l1 <= G a <= l2.
Proof.
  intros H Hf a. pose proof (antid_mono f G l1 l2 H Hf) as Mo. destruct H as (A & B & C). split.
  - apply (filterlim_le (F := Rbar_locally m_infty) G (fun _ => G a) l1 (G a)); [|exact B|apply filterlim_const].
    exists a. intros x Hx. apply Mo. lra.
  - apply (filterlim_le (F := Rbar_locally p_infty) (fun _ => G a) G (G a) l2); [|apply filterlim_const|exact C].
    exists a. intros x Hx. apply Mo. lra.
Qed.

Lemma box_antid f G l1 l2 lo hi : antid f G l1 l2 -> (forall a, 0 <= f a) ->
  box_mass DReal f (lo, hi) (Rmax 0 (Gx G l1 l2 (nan_to Pinf hi) - Gx G l1 l2 (nan_to Minf lo))).
Proof.
  intros H Hf. apply box_mass_if. pose proof (antid_mono f G l1 l2 H Hf) as Mo. pose proof (antid_lim_bounds f G l1 l2 H Hf) as Bd.
  assert (l1 <= l2) as L12 by (specialize (Bd 0); lra).
  assert (forall p, p <= 0 -> (forall a, insideb (lo, hi) a = false) -> sums DReal (fun a => if insideb (lo, hi) a then f a else 0) (Rmax 0 p)) as Z.
  { intros p Hp Ha. rewrite Rmax_left by assumption.
    apply sums_ext with (f := fun _ => 0); [intros a; now rewrite Ha|].
    pose proof (antid_sums _ _ _ _ antid_zero) as E. now rewrite Rminus_0_r in E. }
  assert (sums DReal (fun a => if insideb (lo, hi) a then f a else 0) (Rmax 0 (l2 - l1)) <->
          sums DReal (fun a => if insideb (lo, hi) a then f a else 0) (l2 - l1)) as E2 by (rewrite Rmax_right by lra; tauto).
  assert (forall y, (forall a, insideb (lo, hi) a = rle a y) -> sums DReal (fun a => if insideb (lo, hi) a then f a else 0) (Rmax 0 (G y - l1))) as U.
  { intros y E. rewrite Rmax_right by (specialize (Bd y); lra).
    apply sums_ext with (f := fun a => if rle a y then f a else 0); [intros; now rewrite E|].
    exact (antid_sums _ _ _ _ (antid_right f G l1 l2 y H)). }
  assert (forall x, (forall a, insideb (lo, hi) a = rle x a) -> sums DReal (fun a => if insideb (lo, hi) a then f a else 0) (Rmax 0 (l2 - G x))) as Lw.
  { intros x E. rewrite Rmax_right by (specialize (Bd x); lra).
    apply sums_ext with (f := fun a => if rle x a then f a else 0); [intros; now rewrite E|].
    exact (antid_sums _ _ _ _ (antid_left f G l1 l2 x H)). }
  assert ((forall a, insideb (lo, hi) a = true) -> sums DReal (fun a => if insideb (lo, hi) a then f a else 0) (Rmax 0 (l2 - l1))) as Al.
  { intros E. rewrite Rmax_right by lra. apply sums_ext with (f := f); [intros; now rewrite E|]. exact (antid_sums _ _ _ _ H). }
  destruct lo as [| | |x], hi as [| | |y]; cbn [nan_to Gx];
    first [apply Al; reflexivity
          |apply U; reflexivity
          |apply Lw; intros; unfold insideb; cbn [fst snd aboveb belowb]; now rewrite andb_true_r
          |apply Z; [lra|intros a; unfold insideb; cbn [fst snd aboveb belowb]; rewrite ?andb_false_r; reflexivity]
          |apply Z; [match goal with t : R |- _ => pose proof (Bd t); lra end|intros a; unfold insideb; cbn [fst snd aboveb belowb]; rewrite ?andb_false_r; reflexivity]
          |idtac].
  pose proof (antid_sums _ _ _ _ (antid_right _ _ _ _ y (antid_left f G l1 l2 x H))) as K. cbn beta in K.
  replace (Rmax 0 (G y - G x)) with (G (Rmax x y) - G x).
  - revert K. apply sums_ext. intros a. unfold insideb; cbn [fst snd aboveb belowb]. destruct (rle x a), (rle a y); reflexivity.
  - destruct (Rle_dec x y) as [Hxy|Hxy].
    + rewrite (Rmax_right x y) by assumption. rewrite Rmax_right; [reflexivity|]. specialize (Mo x y Hxy). lra.
    + rewrite (Rmax_left x y) by lra. rewrite Rmax_left; [ring|]. specialize (Mo y x ltac:(lra)). lra.
Qed.

(** ** floor and ceiling *)
Lemma rfloor_le x z : IZR z <= rfloor x <-> IZR z <= x.
Proof.
  unfold rfloor. destruct (base_Int_part x) as [A B]. split; intros H; [lra|].
  apply IZR_le. apply Z.lt_succ_r. apply lt_IZR. rewrite succ_IZR. lra.
Qed.
Lemma rceil_le x z : rceil x <= IZR z <-> x <= IZR z.
Proof.
  unfold rceil. pose proof (rfloor_le (- x) (- z)) as H. rewrite opp_IZR in H. split; intros K.
  - assert (- IZR z <= rfloor (- x)) by lra. apply H in H0. lra.
  - assert (- IZR z <= - x) as H0 by lra. apply H in H0. lra.
Qed.

(** the interval the discrete leaves compare with contains the same integers *)
Lemma disc_inside lo hi K k (h0 : R) : (k < K)%nat -> INR K - 1 <= h0 ->
  (fle (match lo with Nan => Num 0 | _ => fl_map rceil lo end) (Num (INR k)) &&
   fle (Num (INR k)) (match hi with Nan => Num h0 | _ => fl_map rfloor hi end))%bool = insideb (lo, hi) (INR k).
Proof.
  intros Hk Hh. unfold insideb. cbn [fst snd]. f_equal.
  - destruct lo as [| | |x]; cbn [fle fl_map aboveb]; auto.
    + apply rle_spec. apply pos_INR.
    + apply eq_true_iff_eq. rewrite !rle_spec, INR_IZR_INZ. apply rceil_le.
  - destruct hi as [| | |x]; cbn [fle fl_map belowb]; auto.
    + apply rle_spec. assert (S k <= K)%nat as H by lia. apply le_INR in H. rewrite S_INR in H. lra.
    + apply eq_true_iff_eq. rewrite !rle_spec, INR_IZR_INZ. apply rfloor_le.
Qed.

Lemma fits_sums_fin d fm K g p : (range_of fm = DFin (map INR (seq 0 K))) -> (forall k, (K <= k)%nat -> pr (fam_lp fm (INR k)) = 0) ->
  fits d fm -> bsum K (fun k => if insideb g (INR k) then pr (fam_lp fm (INR k)) else 0) = p ->
  box_mass d (fun a => pr (fam_lp fm a)) g p.
Proof.
  intros HR HO HF <-. apply box_mass_if. destruct HF as [->|[_ ->]].
  - rewrite HR. now apply sums_fin_nat.
  - apply (sums_fin_DNat K); [|reflexivity]. intros k Hk. rewrite HO by assumption. now destruct (insideb g (INR k)).
Qed.

(** ** exact interval probabilities *)
Definition normal_cdf' m ls := fun a => normal_cdf m (exp ls) a.
Definition mass (fm : fam) (lo hi : fl) : R :=
  match fm with
  | FBernoulli l => (if insideb (lo, hi) 0 then 1 - sigmoid l else 0) + (if insideb (lo, hi) 1 then sigmoid l else 0)
  | FCategorical K lg => bsum K (fun k => if insideb (lo, hi) (INR k) then softmax K lg k else 0)
  | FUniform a b => Rmax 0 (Gx (uniform_G a b) 0 1 (nan_to Pinf hi) - Gx (uniform_G a b) 0 1 (nan_to Minf lo))
  | FExponential lr => Rmax 0 (Gx (exponential_G lr) 0 1 (nan_to Pinf hi) - Gx (exponential_G lr) 0 1 (nan_to Minf lo))
  | FLaplace m ls => Rmax 0 (Gx (laplace_G m ls) 0 1 (nan_to Pinf hi) - Gx (laplace_G m ls) 0 1 (nan_to Minf lo))
  | FNormal m ls => Rmax 0 (Gx (normal_G m ls) (-(1/2)) (1/2) (nan_to Pinf hi) - Gx (normal_G m ls) (-(1/2)) (1/2) (nan_to Minf lo))
  | _ => 0
  end.

Definition capable_family (fm : fam) : Prop :=
  match fm with FBernoulli _ | FCategorical _ _ | FUniform _ _ | FNormal _ _ | FLaplace _ _ | FExponential _ => True | _ => False end.

Lemma fits_real d fm : range_of fm = DReal -> fits d fm -> d = DReal.
Proof. intros E [->|[H _]]; [assumption|contradiction]. Qed.

Lemma mass_spec d fm lo hi : capable_family fm -> fam_ok fm = true -> fits d fm ->
  box_mass d (fun a => pr (fam_lp fm a)) (lo, hi) (mass fm lo hi).
Proof.
  intros HC Hok HF. destruct fm as [l|K z|n l|l|lr|r l|K N n|a b|lr|m ls|m ls]; try contradiction; cbn [mass].
  - apply (fits_sums_fin d _ 2); auto.
    + intros k Hk. now apply finite_out.
    + cbn [bsum]. rewrite !pr_bernoulli by lia. cbn. ring_simplify. lra.
  - apply (fits_sums_fin d _ K); auto.
    + intros k Hk. now apply finite_out.
    + apply bsum_ext. intros k Hk. now rewrite pr_categorical.
  - rewrite (fits_real d (FUniform a b) eq_refl HF). apply box_antid; [|intros; apply pr_nonneg].
    apply uniform_antid. cbn in Hok. unfold rlt in Hok. destruct (Rlt_dec a b); [assumption|discriminate].
  - rewrite (fits_real d (FExponential lr) eq_refl HF). apply box_antid; [apply exponential_antid|intros; apply pr_nonneg].
  - rewrite (fits_real d (FLaplace m ls) eq_refl HF). apply box_antid; [apply laplace_antid|intros; apply pr_nonneg].
  - rewrite (fits_real d (FNormal m ls) eq_refl HF). apply box_antid; [apply normal_antid|intros; apply pr_nonneg].
Qed.

Lemma Gx_bounds f G l1 l2 : antid f G l1 l2 -> (forall a, 0 <= f a) -> forall t, l1 <= Gx G l1 l2 t <= l2.
Proof.
  intros H Hf t. pose proof (antid_lim_bounds f G l1 l2 H Hf) as Bd. pose proof (Bd 0). destruct t; cbn; auto; lra.
Qed.

Lemma mass_nonneg fm lo hi : capable_family fm -> fam_ok fm = true -> 0 <= mass fm lo hi <= 1.
Proof.
  intros HC Hok. destruct fm as [l|K z|n l|l|lr|r l|K N n|a b|lr|m ls|m ls]; try contradiction; cbn [mass].
  - pose proof (sigmoid_range l). destruct (insideb (lo, hi) 0), (insideb (lo, hi) 1); lra.
  - cbn in Hok. apply Nat.ltb_lt in Hok. split.
    + apply bsum_nonneg. intros k Hk. destruct (insideb (lo, hi) (INR k)); [|lra]. apply Rlt_le, softmax_pos. lia.
    + rewrite <- (softmax_sum K z) by lia. apply bsum_le. intros k Hk. pose proof (softmax_pos K z k ltac:(lia)).
      destruct (insideb (lo, hi) (INR k)); lra.
  - split; [apply Rmax_l|]. cbn in Hok. unfold rlt in Hok. destruct (Rlt_dec a b) as [H|]; [|discriminate].
    pose proof (Gx_bounds _ _ _ _ (uniform_antid a b H) (fun t => pr_nonneg _)) as Bd.
    apply Rmax_lub; [lra|]. pose proof (Bd (nan_to Pinf hi)); pose proof (Bd (nan_to Minf lo)); lra.
  - split; [apply Rmax_l|]. pose proof (Gx_bounds _ _ _ _ (exponential_antid lr) (fun t => pr_nonneg _)) as Bd.
    apply Rmax_lub; [lra|]. pose proof (Bd (nan_to Pinf hi)); pose proof (Bd (nan_to Minf lo)); lra.
  - split; [apply Rmax_l|]. pose proof (Gx_bounds _ _ _ _ (laplace_antid m ls) (fun t => pr_nonneg _)) as Bd.
    apply Rmax_lub; [lra|]. pose proof (Bd (nan_to Pinf hi)); pose proof (Bd (nan_to Minf lo)); lra.
  - split; [apply Rmax_l|]. pose proof (Gx_bounds _ _ _ _ (normal_antid m ls) (fun t => pr_nonneg _)) as Bd.
    apply Rmax_lub; [lra|]. pose proof (Bd (nan_to Pinf hi)); pose proof (Bd (nan_to Minf lo)); lra.
Qed.

(** ** what the leaves return *)
Definition eps40 : R := / 10 ^ 40.
Lemma eps40_pos : 0 < eps40 <= 1.
Proof.
  unfold eps40. split; [apply Rinv_0_lt_compat, pow_lt; lra|].
  apply Rle_trans with (/ 1); [|rewrite Rinv_1; lra]. apply Rinv_le_contravar; [lra|]. apply pow_R1_Rle. lra.
Qed.

Lemma pr_log40 p : pr (log40 p) = Rmax p eps40.
Proof.
  unfold log40, clamp40. cbn [pr]. apply exp_ln. pose proof eps40_pos. fold eps40.
  apply Rlt_le_trans with eps40; [lra|apply Rmax_r].
Qed.

Lemma Rmax_mass d : Rmax d eps40 = Rmax (Rmax 0 d) eps40.
Proof.
  pose proof eps40_pos. unfold Rmax at 3. destruct (Rle_dec 0 d); [reflexivity|].
  rewrite !Rmax_right by lra. reflexivity.
Qed.

Lemma erf_Gauss z : erf z = 2 / sqrt PI * Gauss z.
Proof. reflexivity. Qed.

Lemma normal_cdf_G m ls a : a <> Nan -> normal_cdf m (exp ls) a = 1/2 + Gx (normal_G m ls) (-(1/2)) (1/2) a.
Proof.
  intros Ha. destruct a as [| | |x]; [congruence| | |]; cbn [normal_cdf Gx]; try lra.
  rewrite erf_Gauss. unfold normal_G.
  assert (0 < sqrt PI) by (apply sqrt_lt_R0; apply PI_RGT_0).
  assert (0 < sqrt 2) by (apply sqrt_lt_R0; lra). pose proof (exp_pos ls).
  replace ((x - m) / (exp ls * sqrt 2)) with (/ (exp ls * sqrt 2) * (x - m)) by (field; lra).
  replace 0.5 with (/ 2) by lra. field. lra.
Qed.

Lemma laplace_cdf_G m ls a : a <> Nan -> laplace_cdf m (exp ls) a = Ok (Gx (laplace_G m ls) 0 1 a).
Proof.
  intros Ha. destruct a as [| | |x]; [congruence| | |]; cbn [laplace_cdf Gx]; f_equal; try lra.
  unfold laplace_G, rsign, expm1. pose proof (exp_pos ls).
  destruct (Rle_dec x m), (Rlt_dec (x - m) 0), (Rlt_dec 0 (x - m)); try lra.
  - rewrite Rabs_left by lra. replace (- - (x - m) / exp ls) with (/ exp ls * (x - m)) by (field; lra). lra.
  - assert (x = m) by lra. subst. replace (/ exp ls * (m - m)) with 0 by ring. rewrite exp_0. lra.
  - rewrite Rabs_pos_eq by lra. replace (- (x - m) / exp ls) with (- (/ exp ls * (x - m))) by (field; lra). lra.
Qed.

Lemma exponential_cdf_G lr a : (match a with Num x => 0 <= x | Pinf => True | _ => False end) ->
  exponential_cdf (exp lr) a = Ok (Gx (exponential_G lr) 0 1 a).
Proof.
  destruct a as [| | |x]; intros H; try contradiction; cbn [exponential_cdf Gx]; [f_equal; lra|].
  rewrite (proj2 (rle_spec 0 x) H). f_equal. unfold exponential_G. destruct (Rle_dec x 0).
  - assert (x = 0) by lra. subst. rewrite Rmult_0_r, exp_0. ring.
  - rewrite Rminus_0_r, <- Ropp_mult_distr_l. ring.
Qed.

Definition uclip (a b : R) (t : fl) : R :=
  match t with Num x => Rmin (Rmax x a) b | Minf => a | _ => b end.

Lemma uniform_G_clip a b t : a < b -> Gx (uniform_G a b) 0 1 t = (uclip a b t - a) * / (b - a).
Proof.
  intros H. destruct t as [| | |x]; cbn [Gx uclip]; try (field; lra).
  unfold uniform_G, Rmin, Rmax. destruct (Rle_dec x b), (Rle_dec x a).
  - destruct (Rle_dec a b); [|lra]. field. lra.
  - destruct (Rle_dec x b); [|lra]. field. lra.
  - lra.
  - destruct (Rle_dec x b); [lra|]. field. lra.
Qed.

Lemma uniform_iv_mass a b lo hi : a < b -> pr (uniform_iv a b lo hi) = mass (FUniform a b) lo hi.
Proof.
  intros H. cbn [mass]. rewrite !uniform_G_clip by assumption.
  assert (0 < / (b - a)) as HI by (apply Rinv_0_lt_compat; lra).
  replace (Rmax 0 _) with (Rmax 0 (uclip a b (nan_to Pinf hi) - uclip a b (nan_to Minf lo)) * / (b - a)).
  2:{ rewrite <- Rmult_minus_distr_r. unfold Rminus. 
      replace (uclip a b (nan_to Pinf hi) + - a + - (uclip a b (nan_to Minf lo) + - a)) with (uclip a b (nan_to Pinf hi) + - uclip a b (nan_to Minf lo)) by ring.
      set (d := _ + - _). unfold Rmax at 2. fold (Rminus b a). destruct (Rle_dec 0 (d * / (b - a))) as [C|C].
      - rewrite Rmax_right; [reflexivity|]. destruct (Rle_dec 0 d); [assumption|].
        assert (0 < - d * / (b - a)) by (apply Rmult_lt_0_compat; lra). lra.
      - rewrite Rmax_left; [ring|]. destruct (Rle_dec d 0); [assumption|].
        exfalso. apply C. apply Rmult_le_pos; lra. }
  unfold uniform_iv, Rdiv. rewrite pr_lfrom.
  - f_equal. destruct lo as [| | |x], hi as [| | |y]; cbn [nan_to uclip]; unfold Rmin, Rmax;
      repeat match goal with |- context [Rle_dec ?p ?q] =>
        lazymatch p with context [Rle_dec _ _] => fail | _ => lazymatch q with context [Rle_dec _ _] => fail | _ => destruct (Rle_dec p q) end end end; lra.
  - apply Rmult_le_pos; [|lra]. destruct lo, hi; try lra; apply Rmax_r.
Qed.

(** the returned score: the exact probability, raised to at least 1e-40 *)
Lemma fam_iv_mass fm lo hi : fam_ok fm = true -> interval_capable fm (lo, hi) ->
  exists v, fam_iv fm lo hi = Ok v /\ (pr v = mass fm lo hi \/ pr v = Rmax (mass fm lo hi) eps40).
Proof.
  intros Hok HC. destruct fm as [l|K z|n l|l|lr|r l|K N n|a b|lr|m ls|m ls]; cbn in HC; try contradiction; cbn [fam_iv].
  - eexists. split; [reflexivity|]. right. unfold bernoulli_iv. rewrite pr_log40. f_equal. cbn [mass].
    pose proof (disc_inside lo hi 2 0 1 ltac:(lia) ltac:(cbn; lra)) as E0.
    pose proof (disc_inside lo hi 2 1 1 ltac:(lia) ltac:(cbn; lra)) as E1. cbn [INR] in E0, E1. now rewrite E0, E1.
  - eexists. split; [reflexivity|]. right. unfold categorical_iv. rewrite pr_log40. f_equal. cbn [mass].
    apply bsum_ext. intros k Hk. rewrite (disc_inside lo hi K k (INR K - 1) Hk ltac:(lra)).
    destruct (insideb (lo, hi) (INR k)); ring.
  - eexists. split; [reflexivity|]. left. apply uniform_iv_mass. cbn in Hok. unfold rlt in Hok. destruct (Rlt_dec a b); [assumption|discriminate].
  - unfold base_iv. destruct HC as [H1 H2].
    rewrite exponential_cdf_G by (destruct hi; cbn; auto). rewrite exponential_cdf_G by (destruct lo; cbn; auto).
    cbn [bind]. eexists. split; [reflexivity|]. right. rewrite pr_log40, Rmax_mass. reflexivity.
  - unfold base_iv. rewrite (laplace_cdf_G m ls (nan_to Pinf hi)) by (destruct hi; discriminate).
    rewrite (laplace_cdf_G m ls (nan_to Minf lo)) by (destruct lo; discriminate). cbn [bind].
    eexists. split; [reflexivity|]. right. rewrite pr_log40, Rmax_mass. reflexivity.
  - eexists. split; [reflexivity|]. right. rewrite (normal_cdf_G m ls (nan_to Pinf hi)) by (destruct hi; discriminate).
    rewrite (normal_cdf_G m ls (nan_to Minf lo)) by (destruct lo; discriminate).
    rewrite pr_log40, Rmax_mass. cbn [mass]. do 2 f_equal. ring.
Qed.

Lemma fam_iv_capable fm lo hi v : fam_iv fm lo hi = Ok v -> interval_capable fm (lo, hi).
Proof.
  destruct fm; cbn [fam_iv]; try discriminate; try (intros; exact I). unfold base_iv. intros H.
  split; cbn [fst snd].
  - destruct (exponential_cdf _ (nan_to Pinf hi)) as [ch|]; cbn [bind] in H; [|discriminate].
    destruct lo as [| | |x]; cbn in H; try discriminate; [exact I|].
    destruct (rle 0 x) eqn:Ex; [now apply rle_spec|discriminate].
  - destruct hi as [| | |y]; cbn in H; try discriminate; try exact I.
    destruct (rle 0 y) eqn:Ex; [now apply rle_spec|discriminate].
Qed.

(** ** circuits *)
Lemma bprod_err n (p q e : nat -> R) :
  (forall i, (i < n)%nat -> 0 <= p i /\ p i <= q i /\ q i <= 1 /\ q i <= p i + e i) ->
  bprod n p <= bprod n q <= 1 /\ bprod n q <= bprod n p + bsum n e /\ 0 <= bprod n p.
Proof.
  intros H. induction n as [|n IH]; cbn [bprod bsum]; [lra|].
  destruct IH as (A & B & C); [intros; apply H; lia|]. destruct (H n ltac:(lia)) as (P0 & PQ & Q1 & QE).
  assert (0 <= bprod n q) by lra.
  assert (bprod n p * p n <= bprod n q * q n) by (apply Rmult_le_compat; lra).
  assert (bprod n q * q n <= 1 * 1) by (apply Rmult_le_compat; lra).
  assert (0 <= bprod n p * p n) by (apply Rmult_le_pos; lra).
  repeat split; try lra.
  assert (bprod n q * q n <= bprod n p * p n + (bprod n q - bprod n p) + (q n - p n)); [|lra].
  (* QN - PM = (Q-P) N + P (N-M) *)
  assert ((bprod n q - bprod n p) * q n <= (bprod n q - bprod n p) * 1) by (apply Rmult_le_compat_l; lra).
  assert (bprod n p * (q n - p n) <= 1 * (q n - p n)) by (apply Rmult_le_compat_r; lra). lra.
Qed.

Lemma bsum_length_concat (ls : list (list nat)) : bsum (length ls) (fun i => INR (length (nth i ls []))) = INR (length (concat ls)).
Proof.
  induction ls as [|l ls IH]; [reflexivity|]. cbn [length concat]. rewrite bsum_S_first. cbn [nth].
  rewrite app_length, plus_INR, <- IH. reflexivity.
Qed.

Section Err.
  Variable e : R.
  Variables p q : leaf -> nat -> nat -> nat -> lval.
  Definition close_leaf (l : leaf) : Prop :=
    forall f c r, (f < length (query (l_scope l)))%nat -> (c < l_ch l)%nat -> (r < l_rep l)%nat ->
      pr (p l f c r) <= pr (q l f c r) <= 1 /\ pr (q l f c r) <= pr (p l f c r) + e.

  Lemma eval_err m : wf m -> aligned m -> Forall close_leaf (leaves_of m) -> forall f c r, pos m f c r ->
    pev p m f c r <= pev q m f c r <= 1 /\ pev q m f c r <= pev p m f c r + INR (length (nthq m f)) * e.
  Proof.
    intros W A N f c r P. revert N. revert f c r P.
    apply (pos_induction (fun m f c r => Forall close_leaf (leaves_of m) ->
      pev p m f c r <= pev q m f c r <= 1 /\ pev q m f c r <= pev p m f c r + INR (length (nthq m f)) * e)); auto.
    - intros l f c r Hok Hf Hc Hr N. rewrite nthq_leaf by assumption. cbn [length INR].
      unfold pev. cbn [evalm]. inversion N as [|? ? N1 _]; subst. destruct (N1 f c r Hf Hc Hr). lra.
    - intros ch co rr lg f c r W0 A0 HP IH N. cbn in W0. destruct W0 as [W0 _].
      pose proof (wf_cpos ch (wf_wf1 ch W0)) as Cp. rewrite !pev_sum by assumption.
      change (nthq (MSum ch co rr lg) f) with (nthq ch f).
      set (n := channels (out_shape ch)) in *. set (w := softmax n (fun i => lg f i c (bidx rr r))).
      assert (bsum n w = 1) as SW by (apply softmax_sum; assumption).
      assert (forall i, 0 < w i) as WP by (intros; apply softmax_pos; assumption).
      set (Er := INR (length (nthq ch f)) * e).
      split; [split|].
      + apply bsum_le. intros i Hi. apply Rmult_le_compat_l; [apply Rlt_le, WP|]. destruct (IH i Hi) as [_ B]. apply (B N).
      + rewrite <- SW. apply bsum_le. intros i Hi. rewrite <- (Rmult_1_r (w i)) at 2. apply Rmult_le_compat_l; [apply Rlt_le, WP|].
        destruct (IH i Hi) as [_ B]. apply (B N).
      + replace (bsum n _ + Er) with (bsum n (fun i => w i * (pev p ch f i (bidx (ll_reps ch) r) + Er))).
        * apply bsum_le. intros i Hi. apply Rmult_le_compat_l; [apply Rlt_le, WP|]. destruct (IH i Hi) as [_ B]. apply (B N).
        * rewrite (bsum_ext n _ (fun i => w i * pev p ch f i (bidx (ll_reps ch) r) + w i * Er)) by (intros; ring).
          rewrite bsum_plus, bsum_scal_r, SW. fold n. ring.
    - intros sc pre ch post g c r _ _ HP W0 A0 _ EN IH N. rewrite !pev_cat1, EN by apply HP.
      apply IH. eapply Forall_leaves_cat; eauto.
    - intros sc pre ch post f k r _ _ HP W0 A0 _ EN IH N. rewrite !pev_cat2, EN by apply HP.
      apply IH. eapply Forall_leaves_cat; eauto.
    - intros ch c r W0 A0 HP IH N. rewrite !pev_product.
      destruct (bprod_err (features (out_shape ch)) (fun f => pev p ch f c r) (fun f => pev q ch f c r)
        (fun f => INR (length (nthq ch f)) * e)) as (B1 & B2 & _).
      + intros i Hi. destruct (IH i Hi) as [_ B]. specialize (B N). pose proof (pev_nonneg p ch i c r). tauto.
      + split; [exact B1|]. rewrite bsum_scal_r in B2.
        assert (bsum (features (out_shape ch)) (fun f => INR (length (nthq ch f))) = INR (length (nthq (MProduct ch) 0))) as EL; [|rewrite EL in B2; exact B2].
        rewrite <- (wf_len ch (wf_wf1 ch W0)). unfold nthq. rewrite bsum_length_concat. f_equal.
        apply Permutation_length. cbn [fts nth].
        apply NoDup_Permutation.
        * now apply concat_fts_NoDup.
        * assert (Sorted.StronglySorted lt (pjoin (fts ch))) as HS; [|now apply ssorted_NoDup].
          apply pjoin_sorted. apply Forall_forall. intros x Hx. apply In_nth with (d := []) in Hx.
          destruct Hx as (i & Hi & <-). apply (wf_sorted ch (wf_wf1 ch W0)). now rewrite <- (wf_len ch (wf_wf1 ch W0)).
        * intros v. rewrite pjoin_In, in_concat. reflexivity.
  Qed.
End Err.
