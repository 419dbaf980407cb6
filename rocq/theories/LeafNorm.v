(** The families are normalised. *)
From Coq Require Import List Arith ZArith Bool Reals Lra Lia Binomial.
From Coquelicot Require Import Coquelicot.
From Verif Require Import Base ScopeModel CircuitModel CircuitBasics CircuitEval Integral GaussInt LeafModel LeafProofs.
Import ListNotations.
Local Open Scope R_scope.

Lemma lsumR_seq (g : R -> R) n s : lsumR (map g (map INR (seq s n))) = bsum n (fun k => g (INR (s + k))).
Proof.
  revert s. induction n as [|n IH]; intros s; [reflexivity|].
  rewrite bsum_S_first. cbn [seq map lsumR]. rewrite IH, Nat.add_0_r. f_equal.
  apply bsum_ext. intros k _. now rewrite Nat.add_succ_r.
Qed.

Lemma sum_f_bsum f n : sum_f_R0 f n = bsum (S n) f.
Proof. induction n as [|n IH]; cbn [sum_f_R0 bsum]; [ring|]. rewrite IH. reflexivity. Qed.

Lemma sums_fin_nat K g u : bsum K (fun k => g (INR k)) = u -> sums (DFin (map INR (seq 0 K))) g u.
Proof. intros <-. cbn. now rewrite (lsumR_seq g K 0). Qed.

Lemma bsum_tail n m f : (n <= m)%nat -> (forall k, (n <= k < m)%nat -> f k = 0) -> bsum m f = bsum n f.
Proof.
  intros H Z. induction m as [|m IH].
  - assert (n = 0)%nat by lia. subst. reflexivity.
  - destruct (Nat.eq_dec n (S m)) as [->|]; [reflexivity|]. cbn [bsum]. rewrite Z by lia.
    rewrite IH by (intros; try apply Z; lia). ring.
Qed.

Lemma sums_fin_DNat K g u : (forall k, (K <= k)%nat -> g (INR k) = 0) ->
  bsum K (fun k => g (INR k)) = u -> sums DNat g u.
Proof.
  intros Z <-. cbn. intros eps He. exists K. intros n Hn.
  rewrite sum_f_bsum, (bsum_tail K) by (intros; try apply Z; lia).
  unfold R_dist. rewrite Rminus_diag_eq by reflexivity. rewrite Rabs_R0. exact He.
Qed.

(** negative binomial series *)
Lemma C_pascal_sym n i : Binomial.C (S n + i) (S i) = Binomial.C (n + S i) (S i).
Proof. f_equal. lia. Qed.

Lemma hockey r k : bsum (S k) (fun i => Binomial.C (r + i) i) = Binomial.C (S r + k) k.
Proof.
  induction k as [|k IH].
  - cbn. rewrite !Nat.add_0_r. unfold Binomial.C. rewrite !Nat.sub_0_r. cbn [fact].
    field. split; [|split]; try apply INR_fact_neq_0; cbn; try lra.
    apply (INR_fact_neq_0 (S r)).
  - change (bsum (S (S k)) (fun i => Binomial.C (r + i) i)) with (bsum (S k) (fun i => Binomial.C (r + i) i) + Binomial.C (r + S k) (S k)). rewrite IH. replace (r + S k)%nat with (S r + k)%nat by lia.
    replace (S r + S k)%nat with (S (S r + k)) by lia.
    destruct (Nat.eq_dec (S r + k) k) as [|Hn]; [lia|].
    rewrite (pascal (S r + k) k) by lia. reflexivity.
Qed.

Lemma negbin_series r p : 0 < p < 1 ->
  is_series (fun k => Binomial.C (r + k) k * p ^ k) (/ (1 - p) ^ (S r)).
Proof.
  intros Hp. induction r as [|r IH].
  - replace (/ (1 - p) ^ 1) with (/ (1 - p)) by (f_equal; ring).
    apply is_series_ext with (a := fun k => p ^ k).
    + intros k. cbn [Nat.add]. rewrite C_n_n. now rewrite Rmult_1_l.
    + apply is_series_geom. rewrite Rabs_pos_eq; lra.
  - assert (is_series (fun k => p ^ k) (/ (1 - p))) as G by (apply is_series_geom; rewrite Rabs_pos_eq; lra).
    assert (forall r k, 0 <= Binomial.C (r + k) k) as CP.
    { intros. unfold Binomial.C. apply Rle_mult_inv_pos; [apply pos_INR|].
      apply Rmult_lt_0_compat; apply INR_fact_lt_0. }
    pose proof (is_series_mult _ _ _ _ IH G) as M.
    replace (/ (1 - p) ^ S (S r)) with (/ (1 - p) ^ S r * / (1 - p)).
    2:{ rewrite <- Rinv_mult. f_equal. rewrite <- (tech_pow_Rmult (1 - p) (S r)). ring. }
    eapply is_series_ext; [|apply M].
    + intros k. cbn beta. rewrite sum_f_bsum.
      rewrite <- (hockey r k), <- bsum_scal_r. apply bsum_ext. intros i Hi.
      replace (p ^ k) with (p ^ i * p ^ (k - i)); [ring|]. rewrite <- pow_add. f_equal. lia.
    + eapply ex_series_ext; [|exists (/ (1 - p) ^ S r); exact IH].
      intros k. cbn beta. rewrite Rabs_pos_eq; [reflexivity|].
      apply Rmult_le_pos; [apply CP|apply pow_le; lra].
    + eapply ex_series_ext; [|exists (/ (1 - p)); exact G].
      intros k. cbn beta. rewrite Rabs_pos_eq; [reflexivity|apply pow_le; lra].
Qed.

(** Vandermonde *)
Fixpoint ch (n k : nat) : R :=
  match k with
  | O => 1
  | S k' => match n with O => 0 | S n' => ch n' k' + ch n' k end
  end.

Lemma ch_0_r n : ch n 0 = 1. Proof. destruct n; reflexivity. Qed.
Lemma ch_gt n : forall k, (n < k)%nat -> ch n k = 0.
Proof.
  induction n as [|n IH]; intros [|k] H; try lia; cbn; [reflexivity|]. rewrite !IH by lia. ring.
Qed.

Lemma ch_fact n : forall k, (k <= n)%nat -> ch n k * (INR (fact k) * INR (fact (n - k))) = INR (fact n).
Proof.
  induction n as [|n IH]; intros k H.
  - assert (k = 0)%nat by lia. subst. cbn. lra.
  - destruct k as [|k].
    + rewrite ch_0_r, Nat.sub_0_r. cbn [fact]. rewrite !mult_INR. cbn. ring.
    + cbn [ch]. replace (S n - S k)%nat with (n - k)%nat by lia.
      pose proof (IH k ltac:(lia)) as E1.
      change (fact (S n)) with (S n * fact n)%nat. rewrite mult_INR.
      change (fact (S k)) with (S k * fact k)%nat. rewrite mult_INR.
      transitivity (INR (S k) * INR (fact n) + ch n (S k) * (INR (S k) * INR (fact k) * INR (fact (n - k)))).
      { rewrite <- E1. ring. }
      destruct (Nat.eq_dec k n) as [->|Hn].
      * rewrite (ch_gt n (S n)) by lia. ring.
      * pose proof (IH (S k) ltac:(lia)) as E2.
        change (fact (S k)) with (S k * fact k)%nat in E2. rewrite mult_INR in E2.
        assert (INR (fact (n - k)) = INR (n - k) * INR (fact (n - S k))) as E3.
        { replace (n - k)%nat with (S (n - S k)) by lia.
          change (fact (S (n - S k))) with (S (n - S k) * fact (n - S k))%nat. now rewrite mult_INR. }
        rewrite E3. transitivity (INR (S k) * INR (fact n) + INR (n - k) * INR (fact n)).
        { rewrite <- E2. ring. }
        rewrite <- Rmult_plus_distr_r, <- plus_INR. f_equal. f_equal. lia.
Qed.

Lemma vandermonde K L : forall n, bsum (S n) (fun i => ch K i * ch L (n - i)) = ch (K + L) n.
Proof.
  induction K as [|K IH]; intros n.
  - rewrite bsum_S_first. rewrite ch_0_r, Nat.sub_0_r. rewrite bsum_zero; [cbn; ring|].
    intros i Hi. cbn. ring.
  - destruct n as [|n].
    + cbn. rewrite !ch_0_r. ring.
    + rewrite bsum_S_first, ch_0_r, Nat.sub_0_r.
      transitivity (1 * ch L (S n) + (bsum (S n) (fun i => ch K i * ch L (n - i)) + bsum (S n) (fun i => ch K (S i) * ch L (n - i)))).
      { f_equal. rewrite <- bsum_plus. apply bsum_ext. intros i Hi. cbn [ch Nat.sub]. ring. }
      rewrite IH. cbn [Nat.add ch]. rewrite <- (IH (S n)). rewrite (bsum_S_first (S n)), ch_0_r, Nat.sub_0_r. 
      cbn [Nat.sub]. ring.
Qed.

Lemma pr_hyper K N n k : (K <= N)%nat -> (n <= N)%nat -> (k <= n)%nat ->
  pr (fam_lp (FHyper K N n) (INR k)) = ch K k * ch (N - K) (n - k) / ch N n.
Proof.
  intros HK Hn Hk. unfold fam_lp. cbn [supp lp_formula]. rewrite asnat_INR.
  assert (0 < ch N n) as Cp.
  { pose proof (ch_fact N n Hn) as E. pose proof (INR_fact_lt_0 N). pose proof (INR_fact_lt_0 n). pose proof (INR_fact_lt_0 (N - n)).
    apply (Rmult_lt_reg_r (INR (fact n) * INR (fact (N - n)))); [now apply Rmult_lt_0_compat|]. rewrite E. lra. }
  destruct (Nat.leb_spec (n + K - N) k) as [L1|L1]; cbn [andb].
  2:{ rewrite (ch_gt (N - K)) by lia. cbn. unfold Rdiv. ring. }
  destruct (Nat.leb_spec k (Nat.min n K)) as [L2|L2].
  2:{ rewrite (ch_gt K) by lia. cbn. unfold Rdiv. ring. }
  unfold minus_lgamma1.
  rewrite !(proj2 (Z.ltb_ge _ _)) by lia.
  cbn [ladd pr].
  replace (Z.to_nat (Z.of_nat k)) with k by lia.
  replace (Z.to_nat (Z.of_nat K - Z.of_nat k)) with (K - k)%nat by lia.
  replace (Z.to_nat (Z.of_nat n - Z.of_nat k)) with (n - k)%nat by lia.
  replace (Z.to_nat (Z.of_nat N - Z.of_nat K - Z.of_nat n + Z.of_nat k)) with (N - K - (n - k))%nat by lia.
  match goal with |- exp ?e = _ => replace e with
    (lfact K + (- lfact k + (- lfact (K - k) + (lfact (N - K) + (- lfact (n - k) + (- lfact (N - K - (n - k)) +
     (lfact n + (lfact (N - n) + - lfact N)))))))) by ring end.
  rewrite !exp_plus, !lfact_exp_neg, !lfact_exp.
  pose proof (ch_fact K k ltac:(lia)) as E1. pose proof (ch_fact (N - K) (n - k) ltac:(lia)) as E2. pose proof (ch_fact N n Hn) as E3.
  rewrite <- E1, <- E2, <- E3. 
  pose proof (INR_fact_neq_0 k). pose proof (INR_fact_neq_0 (K - k)). pose proof (INR_fact_neq_0 (n - k)).
  pose proof (INR_fact_neq_0 (N - K - (n - k))). pose proof (INR_fact_neq_0 n). pose proof (INR_fact_neq_0 (N - n)).
  field. repeat split; auto. lra.
Qed.

(** ** densities *)

(** [G] is an antiderivative of [f] with limits [l1], [l2] at the infinities *)
Definition antid (f G : R -> R) (l1 l2 : R) : Prop :=
  (forall a b, a <= b -> is_RInt f a b (G b - G a)) /\
  filterlim G (Rbar_locally m_infty) (locally l1) /\ filterlim G (Rbar_locally p_infty) (locally l2).

Lemma antid_sums f G l1 l2 : antid f G l1 l2 -> sums DReal f (l2 - l1).
Proof. intros (A & B & C). exact (RInt_gen_antideriv f G l1 l2 A B C). Qed.

Definition uniform_G (lo hi t : R) : R :=
  if Rle_dec t hi then (if Rle_dec t lo then 0 else (t - lo) / (hi - lo)) else 1.

Lemma uniform_antid lo hi : lo < hi -> antid (fun a => pr (fam_lp (FUniform lo hi) a)) (uniform_G lo hi) 0 1.
Proof.
  intros H.
  set (f := fun a => pr (fam_lp (FUniform lo hi) a)).
  assert (forall a, lo < a < hi -> f a = / (hi - lo)) as F1.
  { intros a Ha. unfold f, fam_lp. cbn [supp lp_formula].
    unfold rle, rlt. destruct (Rle_dec lo a); [|lra]. destruct (Rle_dec a hi); [|lra]. destruct (Rlt_dec a hi); [|lra].
    cbn [andb pr]. rewrite exp_Ropp, exp_ln; lra. }
  assert (forall a, a < lo \/ hi < a -> f a = 0) as F0.
  { intros a Ha. unfold f, fam_lp. cbn [supp]. unfold rle. destruct (Rle_dec lo a), (Rle_dec a hi); try lra; reflexivity. }
  set (GL := fun t => if Rle_dec t lo then 0 else (t - lo) / (hi - lo)).
  change (antid f (fun t => if Rle_dec t hi then GL t else 1) 0 1). split; [|split].
  - apply RInt_glue.
    + intros a b Hab Hb.
      assert (forall a b, a <= b -> b <= hi -> is_RInt f a b (GL b - GL a)) as K; [|now apply K].
      clear a b Hab Hb. intros a b Hab Hb. unfold GL.
      destruct (Rle_dec b lo) as [Hbl|Hbl], (Rle_dec a lo) as [Hal|Hal]; try lra.
      * replace (0 - 0) with (scal (b - a) 0) by (unfold scal; cbn; unfold mult; cbn; ring).
        apply (is_RInt_ext (fun _ => 0)); [|apply (is_RInt_const a b 0)].
        intros x. rewrite Rmin_left, Rmax_right by lra. intros Hx. symmetry. apply F0. lra.
      * replace ((b - lo) / (hi - lo) - 0) with (plus (scal (lo - a) 0) (scal (b - lo) (/ (hi - lo)))).
        2:{ unfold plus, scal. cbn. unfold mult. cbn. field. lra. }
        apply (is_RInt_Chasles f a lo b).
        -- apply (is_RInt_ext (fun _ => 0)); [|apply (is_RInt_const a lo 0)].
           intros x. rewrite Rmin_left, Rmax_right by lra. intros Hx. symmetry. apply F0. lra.
        -- apply (is_RInt_ext (fun _ => / (hi - lo))); [|apply (is_RInt_const lo b (/ (hi - lo)))].
           intros x. rewrite Rmin_left, Rmax_right by lra. intros Hx. symmetry. apply F1. lra.
      * replace ((b - lo) / (hi - lo) - (a - lo) / (hi - lo)) with (scal (b - a) (/ (hi - lo))).
        2:{ unfold scal. cbn. unfold mult. cbn. field. lra. }
        apply (is_RInt_ext (fun _ => / (hi - lo))); [|apply (is_RInt_const a b (/ (hi - lo)))].
        intros x. rewrite Rmin_left, Rmax_right by lra. intros Hx. symmetry. apply F1. lra.
    + intros a b Ha Hab. replace (1 - 1) with (scal (b - a) 0) by (unfold scal; cbn; unfold mult; cbn; ring).
      apply (is_RInt_ext (fun _ => 0)); [|apply (is_RInt_const a b 0)].
      intros x. rewrite Rmin_left, Rmax_right by lra. intros Hx. symmetry. apply F0. lra.
    + unfold GL. destruct (Rle_dec hi lo); [lra|]. field. lra.
  - apply lim_loc_const; [apply Rbar_locally_filter|]. exists lo. intros x Hx. destruct (Rle_dec x hi); [|lra].
    unfold GL. destruct (Rle_dec x lo); lra.
  - apply lim_loc_const; [apply Rbar_locally_filter|]. exists hi. intros x Hx. destruct (Rle_dec x hi); lra.
Qed.

Lemma uniform_norm lo hi : lo < hi -> sums DReal (fun a => pr (fam_lp (FUniform lo hi) a)) 1.
Proof. intros H. replace 1 with (1 - 0) by ring. exact (antid_sums _ _ _ _ (uniform_antid lo hi H)). Qed.

Definition exponential_G (lr t : R) : R := if Rle_dec t 0 then 0 else 1 + -1 * exp (- (exp lr * (t - 0))).

Lemma exponential_antid lr : antid (fun a => pr (fam_lp (FExponential lr) a)) (exponential_G lr) 0 1.
Proof.
  unfold exponential_G. set (f := fun a => pr (fam_lp (FExponential lr) a)). pose proof (exp_pos lr) as Hl. set (c := exp lr) in *.
  assert (forall a, 0 < a -> f a = c * exp (- (c * (a - 0)))) as F1.
  { intros a Ha. unfold f, fam_lp. cbn [supp lp_formula]. unfold rle. destruct (Rle_dec 0 a); [|lra].
    cbn [pr]. fold c. unfold Rminus at 1. rewrite exp_plus. rewrite exp_ln by assumption.
    rewrite Rminus_0_r. reflexivity. }
  assert (forall a, a < 0 -> f a = 0) as F0.
  { intros a Ha. unfold f, fam_lp. cbn [supp]. unfold rle. destruct (Rle_dec 0 a); [lra|reflexivity]. }
  split; [|split].
  - apply (RInt_glue f 0 (fun _ => 0) (fun t => 1 + -1 * exp (- (c * (t - 0))))).
    + intros a b Hab Hb. replace (0 - 0) with (scal (b - a) 0) by (unfold scal; cbn; unfold mult; cbn; ring).
      apply (is_RInt_ext (fun _ => 0)); [|apply (is_RInt_const a b 0)].
      intros x. rewrite Rmin_left, Rmax_right by lra. intros Hx. symmetry. apply F0. lra.
    + intros a b Ha Hab. apply (is_RInt_ext (fun x => c * exp (- (c * (x - 0))))).
      { intros x. rewrite Rmin_left, Rmax_right by lra. intros Hx. symmetry. apply F1. lra. }
      apply (is_RInt_derive (fun t => 1 + -1 * exp (- (c * (t - 0)))) (fun x => c * exp (- (c * (x - 0))))).
      * intros x _. auto_derive; [auto|]. unfold Rminus. ring.
      * intros x _. apply (ex_derive_continuous (fun x => c * exp (- (c * (x - 0))))). auto_derive. auto.
    + rewrite Rminus_0_r, Rmult_0_r, Ropp_0, exp_0. ring.
  - apply lim_loc_const; [apply Rbar_locally_filter|]. exists 0. intros x Hx. destruct (Rle_dec x 0); lra.
  - apply (filterlim_ext_loc (fun t => 1 + -1 * exp (- (c * (t - 0))))).
    { exists 0. intros x Hx. destruct (Rle_dec x 0); lra. }
    replace (locally 1) with (locally (1 + (-1) * 0)) by (f_equal; ring).
    apply (lim_affine _ _ (fun t => exp (- (c * (t - 0))))). now apply exp_decay.
Qed.

Lemma exponential_norm lr : sums DReal (fun a => pr (fam_lp (FExponential lr) a)) 1.
Proof. replace 1 with (1 - 0) by ring. exact (antid_sums _ _ _ _ (exponential_antid lr)). Qed.

Definition laplace_G (m ls t : R) : R :=
  if Rle_dec t m then 0 + 1/2 * exp (/ exp ls * (t - m)) else 1 + (-1/2) * exp (- (/ exp ls * (t - m))).

Lemma laplace_antid m ls : antid (fun a => pr (fam_lp (FLaplace m ls) a)) (laplace_G m ls) 0 1.
Proof.
  unfold laplace_G. set (f := fun a => pr (fam_lp (FLaplace m ls) a)). pose proof (exp_pos ls) as Hs. set (s := exp ls) in *.
  pose proof (Rinv_0_lt_compat s Hs) as His.
  assert (forall a, f a = / (2 * s) * exp (- (/ s * Rabs (a - m)))) as F.
  { intros a. unfold f, fam_lp. cbn [supp lp_formula pr]. fold s.
    unfold Rminus at 1. rewrite exp_plus, exp_Ropp, exp_ln by lra. f_equal. f_equal. unfold Rdiv. ring. }
  split; [|split].
  - apply (RInt_glue f m (fun t => 0 + 1/2 * exp (/ s * (t - m))) (fun t => 1 + (-1/2) * exp (- (/ s * (t - m))))).
    + intros a b Hab Hb. apply (is_RInt_ext (fun x => / (2 * s) * exp (/ s * (x - m)))).
      { intros x. rewrite Rmin_left, Rmax_right by lra. intros Hx. rewrite F. rewrite Rabs_left by lra. f_equal. f_equal. ring. }
      apply (is_RInt_derive (fun t => 0 + 1/2 * exp (/ s * (t - m))) (fun x => / (2 * s) * exp (/ s * (x - m)))).
      * intros x _. auto_derive; [auto|]. unfold Rminus. field. lra.
      * intros x _. apply (ex_derive_continuous (fun x => / (2 * s) * exp (/ s * (x - m)))). auto_derive. auto.
    + intros a b Ha Hab. apply (is_RInt_ext (fun x => / (2 * s) * exp (- (/ s * (x - m))))).
      { intros x. rewrite Rmin_left, Rmax_right by lra. intros Hx. rewrite F. rewrite Rabs_pos_eq by lra. reflexivity. }
      apply (is_RInt_derive (fun t => 1 + (-1/2) * exp (- (/ s * (t - m)))) (fun x => / (2 * s) * exp (- (/ s * (x - m))))).
      * intros x _. auto_derive; [auto|]. unfold Rminus. field. lra.
      * intros x _. apply (ex_derive_continuous (fun x => / (2 * s) * exp (- (/ s * (x - m))))). auto_derive. auto.
    + rewrite Rminus_diag_eq by reflexivity. rewrite Rmult_0_r, Ropp_0, exp_0. field.
  - apply (filterlim_ext_loc (fun t => 0 + 1/2 * exp (/ s * (t - m)))).
    { exists m. intros x Hx. destruct (Rle_dec x m); lra. }
    replace (locally 0) with (locally (0 + 1/2 * 0)) by (f_equal; field).
    apply (lim_affine _ _ (fun t => exp (/ s * (t - m)))). now apply exp_decay_m.
  - apply (filterlim_ext_loc (fun t => 1 + (-1/2) * exp (- (/ s * (t - m))))).
    { exists m. intros x Hx. destruct (Rle_dec x m); lra. }
    replace (locally 1) with (locally (1 + (-1/2) * 0)) by (f_equal; field).
    apply (lim_affine _ _ (fun t => exp (- (/ s * (t - m))))). now apply exp_decay.
Qed.

Lemma laplace_norm m ls : sums DReal (fun a => pr (fam_lp (FLaplace m ls) a)) 1.
Proof. replace 1 with (1 - 0) by ring. exact (antid_sums _ _ _ _ (laplace_antid m ls)). Qed.

Lemma normal_density m ls a :
  pr (fam_lp (FNormal m ls) a) = exp (- ((a - m) / exp ls) ^ 2 / 2) / (exp ls * sqrt (2 * PI)).
Proof.
  unfold fam_lp. cbn [supp lp_formula pr]. pose proof (exp_pos ls) as Hs. set (s := exp ls) in *.
  assert (0 < sqrt (2 * PI)) by (apply sqrt_lt_R0; pose proof PI_RGT_0; lra).
  unfold Rminus at 1 2. rewrite !exp_plus, !exp_Ropp, !exp_ln by assumption.
  replace (- (a - m) ^ 2 / (2 * s ^ 2)) with (- ((a - m) / s) ^ 2 / 2) by (field; lra).
  field. split; lra.
Qed.

Definition normal_G (m ls t : R) : R := 0 + / sqrt PI * Gauss (/ (exp ls * sqrt 2) * (t - m)).

Lemma normal_antid m ls : antid (fun a => pr (fam_lp (FNormal m ls) a)) (normal_G m ls) (- (1/2)) (1/2).
Proof.
  unfold normal_G. set (f := fun a => pr (fam_lp (FNormal m ls) a)). pose proof (exp_pos ls) as Hs. set (s := exp ls) in *.
  pose proof PI_RGT_0 as Pp. assert (0 < sqrt 2) as S2 by (apply sqrt_lt_R0; lra). assert (0 < sqrt PI) as SP by (apply sqrt_lt_R0; lra).
  set (k := / (s * sqrt 2)). assert (0 < k) as Hk by (apply Rinv_0_lt_compat, Rmult_lt_0_compat; lra).
  assert (forall a, f a = / sqrt PI * (k * gauss (k * (a - m)))) as F.
  { intros a. unfold f. rewrite normal_density. fold s. unfold gauss. rewrite sqrt_mult by lra.
    replace (- ((a - m) / s) ^ 2 / 2) with (- (k * (a - m) * (k * (a - m)))).
    - unfold k. field. repeat split; lra.
    - unfold k. rewrite <- (sqrt_sqrt 2) at 3 by lra. field. lra. }
  replace (1/2) with (0 + / sqrt PI * (sqrt PI / 2)) by (field; lra).
  replace (- (0 + / sqrt PI * (sqrt PI / 2))) with (0 + / sqrt PI * - (sqrt PI / 2)) by (field; lra).
  fold k. split; [|split].
  - intros a b _. apply (is_RInt_ext (fun a => / sqrt PI * (k * gauss (k * (a - m))))).
    { intros x _. now rewrite F. }
    apply (is_RInt_derive (fun t => 0 + / sqrt PI * Gauss (k * (t - m))) (fun a => / sqrt PI * (k * gauss (k * (a - m))))).
    + intros x _. apply (is_derive_ext (fun t => / sqrt PI * Gauss (k * (t - m)))); [intros; now rewrite Rplus_0_l|].
      apply (is_derive_scal (fun t => Gauss (k * (t - m)))).
      apply (is_derive_comp Gauss (fun t => k * (t - m))).
      * apply Gauss_derive.
      * auto_derive; [auto|]. ring.
    + intros x _. apply (ex_derive_continuous (fun a => / sqrt PI * (k * gauss (k * (a - m))))). unfold gauss. auto_derive. auto.
  - apply (lim_affine _ _ (fun t => Gauss (k * (t - m)))).
    apply (filterlim_comp _ _ _ (fun t => k * (t - m)) Gauss _ (Rbar_locally m_infty)); [|exact Gauss_lim_m].
    intros P [M HM]. exists (m + M / k). intros x Hx. apply HM.
    apply (Rmult_lt_reg_l (/ k)); [now apply Rinv_0_lt_compat|]. rewrite <- Rmult_assoc, Rinv_l by lra.
    unfold Rdiv in Hx. lra.
  - apply (lim_affine _ _ (fun t => Gauss (k * (t - m)))).
    apply (filterlim_comp _ _ _ (fun t => k * (t - m)) Gauss _ (Rbar_locally p_infty)); [|exact Gauss_lim_p].
    intros P [M HM]. exists (m + M / k). intros x Hx. apply HM.
    apply (Rmult_lt_reg_l (/ k)); [now apply Rinv_0_lt_compat|]. rewrite <- Rmult_assoc, Rinv_l by lra.
    unfold Rdiv in Hx. lra.
Qed.

Lemma normal_norm m ls : sums DReal (fun a => pr (fam_lp (FNormal m ls) a)) 1.
Proof. replace 1 with (1/2 - - (1/2)) by field. exact (antid_sums _ _ _ _ (normal_antid m ls)). Qed.
