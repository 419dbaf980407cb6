From Coq Require Import List Arith ZArith Bool Reals Lra Lia Permutation Sorting.Sorted.
From Verif Require Import Base ScopeModel CircuitModel CircuitBasics CircuitEval Integral MargProofs LeafModel LeafSpec LeafProofs EmProofs MleModel MleProofs.
Import ListNotations.
Local Open Scope R_scope.

(** ** categorical *)

Lemma lsumR_bsum_swap {A} (g : A -> nat -> R) n l :
  lsumR (map (fun p => bsum n (fun k => g p k)) l) = bsum n (fun k => lsumR (map (fun p => g p k) l)).
Proof.
  induction l as [|p l IH]; cbn.
  - symmetry. apply bsum_zero. auto.
  - now rewrite IH, <- bsum_plus.
Qed.

Definition ind (a : R) (k : nat) : R := if Req_EM_T a (INR k) then 1 else 0.

Lemma bsum_ind K k (h : nat -> R) : (k < K)%nat -> bsum K (fun j => ind (INR k) j * h j) = h k.
Proof.
  intros H. rewrite (bsum_single K _ k).
  - unfold ind. destruct (Req_EM_T (INR k) (INR k)); [ring|congruence].
  - assumption.
  - intros j Hj Hn. unfold ind. destruct (Req_EM_T (INR k) (INR j)) as [E|]; [|ring].
    apply INR_eq in E. congruence.
Qed.

Lemma cat_sample K z l p : sample_ok (FCategorical K z) l -> In p l -> exists k, (k < K)%nat /\ snd p = INR k.
Proof.
  intros H Hp. pose proof (sample_supp _ _ _ H Hp) as S. cbn in S.
  destruct (asnat (snd p)) as [k|] eqn:E; [|discriminate]. exists k. split; [now apply Nat.ltb_lt|now apply asnat_Some].
Qed.

Lemma Scat_sum K z l : sample_ok (FCategorical K z) l -> bsum K (fun k => Scat k l) = S0 l.
Proof.
  intros H. unfold Scat, S0. rewrite <- (lsumR_bsum_swap (fun p k => fst p * (if Req_EM_T (snd p) (INR k) then 1 else 0))).
  apply lsumR_map_ext. intros p Hp. destruct (cat_sample _ _ _ _ H Hp) as (k & Hk & E). rewrite E.
  transitivity (bsum K (fun j => ind (INR k) j * fst p)).
  - apply bsum_ext. intros j _. unfold ind. ring.
  - apply (bsum_ind K k (fun _ => fst p) Hk).
Qed.

Lemma Scat_nonneg k l : wpos l -> 0 <= Scat k l.
Proof.
  intros H. apply (wsum_nonneg (fun a => if Req_EM_T a (INR k) then 1 else 0)); [assumption|].
  intros p _. cbn beta. destruct (Req_EM_T (snd p) (INR k)); lra.
Qed.

Lemma wll_categorical K z l : sample_ok (FCategorical K z) l ->
  wll (FCategorical K z) l = bsum K (fun k => Scat k l * ln (softmax K z k)).
Proof.
  intros H. unfold wll, Scat.
  transitivity (lsumR (map (fun p => bsum K (fun k => fst p * (if Req_EM_T (snd p) (INR k) then 1 else 0) * ln (softmax K z k))) l)).
  - apply lsumR_map_ext. intros p Hp. destruct (cat_sample _ _ _ _ H Hp) as (k & Hk & E).
    assert (score (FCategorical K z) (snd p) = ln (softmax K z k)) as Es.
    { unfold score, fam_lp. rewrite (sample_supp _ _ _ H Hp). cbn. rewrite E, asnat_INR.
      rewrite <- (exp_log_softmax K z k) by lia. now rewrite ln_exp. }
    rewrite Es. rewrite E. symmetry.
    transitivity (bsum K (fun j => ind (INR k) j * (fst p * ln (softmax K z j)))).
    + apply bsum_ext. intros j _. unfold ind. ring.
    + apply (bsum_ind K k (fun j => fst p * ln (softmax K z j)) Hk).
  - rewrite (lsumR_bsum_swap (fun p k => fst p * (if Req_EM_T (snd p) (INR k) then 1 else 0) * ln (softmax K z k))).
    apply bsum_ext. intros k _. rewrite <- lsumR_map_scal_r. reflexivity.
Qed.

Definition cl : R := / 10000000000.
Definition pcat (l : list (R * R)) (k : nat) : R := Rmax (Scat k l / S0 l) cl.

Lemma xsum_R n f g : (forall k, (k < n)%nat -> f k = XR (g k)) -> xsum n f = XR (bsum n g).
Proof.
  intros H. induction n as [|n IH]; [reflexivity|]. cbn [xsum bsum]. rewrite IH, H by (intros; try apply H; lia). reflexivity.
Qed.

Lemma est_cat K t l : 0 < t -> 0 < S0 l ->
  est_categorical K (XR t) l = ECategorical K (fun k => xdiv (XR (pcat l k)) (xsum K (fun k => XR (pcat l k)))).
Proof.
  intros Ht H0. unfold est_categorical. f_equal. apply FunctionalExtensionality.functional_extensionality. intros k.
  assert (forall k, xclamp_min (xdiv (xmul (XR t) (XR (Scat k l))) (xmul (XR t) (XR (S0 l)))) (/ 10000000000) = XR (pcat l k)) as E.
  { intros j. rewrite ratio by assumption. reflexivity. }
  rewrite E. f_equal. f_equal. apply FunctionalExtensionality.functional_extensionality. intros j. apply E.
Qed.

Lemma forallb_xfinite_map K (f : nat -> R) : forallb xfinite (map (fun k => XR (f k)) (seq 0 K)) = true.
Proof. apply forallb_forall. intros x Hx. apply in_map_iff in Hx. destruct Hx as (k & <- & _). reflexivity. Qed.

Lemma cat_stored K z ulp bc t l : 0 < t -> sample_ok (FCategorical K z) l ->
  exists e lg, estimate_of (FCategorical K z) ulp bc (XR t) l = Some e /\ stored_fam e = Some (FCategorical K lg) /\
    (forall k, (k < K)%nat -> softmax K lg k = pcat l k / bsum K (pcat l)).
Proof.
  intros Ht H. pose proof (sample_wpos _ _ H) as W. pose proof (S0_pos l (proj1 H) W) as P0.
  assert (forall k, 0 < pcat l k) as Pp by (intros k; unfold pcat, cl; eapply Rlt_le_trans; [|apply Rmax_r]; lra).
  assert (0 < K)%nat as PK.
  { destruct l as [|p l]; [destruct H; congruence|]. destruct (cat_sample _ _ _ p H (or_introl eq_refl)) as (k & Hk & _). lia. }
  assert (0 < bsum K (pcat l)) as PZ by (apply bsum_pos; auto).
  set (q := fun k => pcat l k / bsum K (pcat l)).
  assert (forall k, 0 < q k) as Pq by (intros k; now apply Rdiv_lt_0_compat).
  cbn [estimate_of]. rewrite est_cat by assumption.
  eexists. exists (fun k => match nth k (map (fun k => XR (ln (q k))) (seq 0 K)) XNan with XR x => x | _ => 0 end).
  split; [reflexivity|]. split.
  - unfold stored_fam. cbn [store].
    replace (map _ (seq 0 K)) with (map (fun k => XR (ln (q k))) (seq 0 K)).
    + rewrite forallb_xfinite_map. reflexivity.
    + apply map_ext. intros k. rewrite (xsum_R K _ (pcat l)) by reflexivity. rewrite xdiv_R by lra. now rewrite xlog_pos by apply Pq.
  - intros k Hk. change (pcat l k / bsum K (pcat l)) with (q k). rewrite <- (softmax_ln K q k Hk).
    + assert (forall j, (j < K)%nat -> match nth j (map (fun k => XR (ln (q k))) (seq 0 K)) XNan with XR x => x | _ => 0 end = ln (q j)) as E.
      { intros j Hj. set (g := fun k => XR (ln (q k))). rewrite (nth_indep _ XNan (g 0%nat)) by now rewrite map_length, seq_length.
        rewrite map_nth, seq_nth by assumption. reflexivity. }
      unfold softmax. rewrite E by assumption. f_equal. apply bsum_ext. intros j Hj. now rewrite E.
    + intros; apply Pq.
    + unfold q. rewrite bsum_div. field. lra.
Qed.

Lemma pcat_sum K z l : sample_ok (FCategorical K z) l -> 1 <= bsum K (pcat l) <= 1 + INR K * cl.
Proof.
  intros H. pose proof (sample_wpos _ _ H) as W. pose proof (S0_pos l (proj1 H) W) as P0.
  assert (bsum K (fun k => Scat k l / S0 l) = 1) as E1.
  { rewrite bsum_div, (Scat_sum K z) by assumption. field. lra. }
  split.
  - rewrite <- E1. apply bsum_le. intros k _. apply Rmax_l.
  - rewrite <- E1. replace (INR K * cl) with (bsum K (fun _ => cl)) by (rewrite bsum_const; ring).
    rewrite <- bsum_plus. apply bsum_le. intros k _. unfold pcat.
    assert (0 <= Scat k l / S0 l) by (apply Rle_mult_inv_pos; [now apply Scat_nonneg|assumption]).
    assert (0 < cl) by (unfold cl; lra). apply Rmax_lub; lra.
Qed.

Lemma cat_gap K z l lg lg' : sample_ok (FCategorical K z) l ->
  (forall k, (k < K)%nat -> softmax K lg k = pcat l k / bsum K (pcat l)) ->
  wll (FCategorical K lg') l <= wll (FCategorical K lg) l + S0 l * ln (bsum K (pcat l)).
Proof.
  intros H E. pose proof (sample_wpos _ _ H) as W. pose proof (S0_pos l (proj1 H) W) as P0.
  assert (forall k, 0 < pcat l k) as Pp by (intros k; unfold pcat, cl; eapply Rlt_le_trans; [|apply Rmax_r]; lra).
  assert (0 < K)%nat as PK.
  { destruct l as [|p l]; [destruct H; congruence|]. destruct (cat_sample _ _ _ p H (or_introl eq_refl)) as (k & Hk & _). lia. }
  pose proof (pcat_sum K z l H) as [PZ _]. set (Z := bsum K (pcat l)) in *.
  rewrite !wll_categorical by (eapply sample_same; [|exact H]; reflexivity).
  assert (bsum K (fun k => Scat k l * ln (softmax K lg k)) = bsum K (fun k => Scat k l * ln (pcat l k)) - S0 l * ln Z) as E2.
  { rewrite <- (Scat_sum K z l H), <- bsum_scal_r.
    replace (bsum K (fun k => Scat k l * ln (pcat l k)) - bsum K (fun i => Scat i l * ln Z))
      with (bsum K (fun k => Scat k l * ln (pcat l k)) + bsum K (fun i => - (Scat i l * ln Z))).
    - rewrite <- bsum_plus. apply bsum_ext. intros k Hk. rewrite E by assumption. unfold Rdiv.
      rewrite ln_mult, ln_Rinv by (try apply Rinv_0_lt_compat; auto; lra). ring.
    - replace (bsum K (fun i => - (Scat i l * ln Z))) with (bsum K (fun i => (-1) * (Scat i l * ln Z))) by (apply bsum_ext; intros; ring).
      rewrite bsum_scal. ring. }
  rewrite E2. ring_simplify.
  assert (bsum K (fun k => Scat k l * ln (softmax K lg' k)) <=
          bsum K (fun k => Scat k l * ln (pcat l k) + (S0 l * softmax K lg' k + -1 * Scat k l))) as G.
  { apply bsum_le. intros k Hk. set (q := softmax K lg' k). assert (0 < q) as Pq by (apply softmax_pos; lia).
    pose proof (ln_le_sub1 (q / pcat l k) ltac:(apply Rdiv_lt_0_compat; auto)) as L.
    unfold Rdiv in L. rewrite ln_mult, ln_Rinv in L by (try apply Rinv_0_lt_compat; auto).
    pose proof (Scat_nonneg k l W) as Ns. apply (Rmult_le_compat_l (Scat k l)) in L; [|assumption].
    assert (Scat k l * (q * / pcat l k) <= S0 l * q) as M.
    { apply (Rmult_le_reg_r (pcat l k)); [auto|].
      replace (Scat k l * (q * / pcat l k) * pcat l k) with (q * Scat k l) by (field; apply Rgt_not_eq, Pp).
      replace (S0 l * q * pcat l k) with (q * (S0 l * pcat l k)) by ring.
      apply Rmult_le_compat_l; [lra|].
      assert (Scat k l / S0 l <= pcat l k) as X by apply Rmax_l.
      apply (Rmult_le_compat_l (S0 l)) in X; [|lra]. replace (S0 l * (Scat k l / S0 l)) with (Scat k l) in X by (field; lra). exact X. }
    lra. }
  rewrite !bsum_plus, !bsum_scal, (Scat_sum K z l H), softmax_sum in G by lia. lra.
Qed.

Lemma weight_of_cat k l : weight_of (fun a => req a (INR k)) l = Scat k l.
Proof.
  unfold weight_of, Scat. induction l as [|p l IH]; [reflexivity|]. cbn. unfold req at 1.
  destruct (Req_EM_T (snd p) (INR k)); cbn; rewrite IH; ring.
Qed.
Lemma weight_of_true l : weight_of (fun _ => true) l = S0 l.
Proof. unfold weight_of, S0. induction l as [|p l IH]; [reflexivity|]. cbn. now rewrite IH. Qed.

Lemma opt_categorical K z ulp bc t l : 0 < t -> sample_ok (FCategorical K z) l -> interior (FCategorical K z) l ->
  exists e fm, estimate_of (FCategorical K z) ulp bc (XR t) l = Some e /\ stored_fam e = Some fm /\ same_family (FCategorical K z) fm /\ optimal fm l.
Proof.
  intros Ht H HI. destruct (cat_stored K z ulp bc t l Ht H) as (e & lg & E1 & E2 & E3).
  exists e, (FCategorical K lg). split; [assumption|]. split; [assumption|]. split; [reflexivity|].
  intros fm' E. destruct fm' as [|K' lg'| | | | | | | | |]; try contradiction. cbn in E. subst K'.
  pose proof (cat_gap K z l lg lg' H E3) as G.
  assert (bsum K (pcat l) = 1) as Z1.
  { pose proof (sample_wpos _ _ H) as W. pose proof (S0_pos l (proj1 H) W) as P0.
    transitivity (bsum K (fun k => Scat k l / S0 l)); [|rewrite bsum_div, (Scat_sum K z) by assumption; field; lra].
    apply bsum_ext. intros k Hk. unfold pcat. apply Rmax_left. specialize (HI k Hk).
    rewrite weight_of_cat, weight_of_true in HI. fold cl in HI.
    apply (Rmult_le_reg_r (S0 l)); [assumption|]. unfold Rdiv. rewrite Rmult_assoc, Rinv_l by lra. lra. }
  rewrite Z1, ln_1 in G. lra.
Qed.

(** ** normal *)
Lemma score_normal m ls a : score (FNormal m ls) a = - ((a - m) ^ 2) * / (2 * exp ls ^ 2) + - (ls + ln (sqrt (2 * PI))).
Proof. unfold score, fam_lp. cbn [supp lp_formula]. rewrite ln_exp. unfold Rdiv. ring. Qed.

Lemma wll_normal m ls l : wll (FNormal m ls) l = - Sdev m l * / (2 * exp ls ^ 2) - S0 l * (ls + ln (sqrt (2 * PI))).
Proof.
  unfold wll, Sdev, S0.
  replace (- lsumR (map (fun p => fst p * (snd p - m) ^ 2) l) * / (2 * exp ls ^ 2) - lsumR (map fst l) * (ls + ln (sqrt (2 * PI))))
    with (lsumR (map (fun p => fst p * (snd p - m) ^ 2) l) * (- / (2 * exp ls ^ 2)) + lsumR (map fst l) * (- (ls + ln (sqrt (2 * PI))))) by ring.
  rewrite <- !lsumR_map_scal_r, <- lsumR_map_plus. apply lsumR_map_ext. intros p _. rewrite score_normal. ring.
Qed.

Lemma Sdev_shift m l : 0 < S0 l -> Sdev m l = Sdev (S1 l / S0 l) l + S0 l * (S1 l / S0 l - m) ^ 2.
Proof.
  intros H. set (u := S1 l / S0 l).
  assert (forall m, Sdev m l = lsumR (map (fun p => fst p * snd p ^ 2) l) + -2 * m * S1 l + m ^ 2 * S0 l) as E.
  { intros m'. unfold Sdev, S1, S0. rewrite <- !lsumR_map_scal, <- !lsumR_map_plus. apply lsumR_map_ext. intros; ring. }
  rewrite (E m), (E u). replace (S1 l) with (u * S0 l) by (unfold u; field; lra). ring.
Qed.

Lemma Sdev_nonneg m l : wpos l -> 0 <= Sdev m l.
Proof. intros H. apply (wsum_nonneg (fun a => (a - m) ^ 2)); [assumption|]. intros; apply pow2_ge_0. Qed.

Lemma Sdev_pos m l : wpos l -> (exists a b, a <> b /\ occurs (eq a) l /\ occurs (eq b) l) -> 0 < Sdev m l.
Proof.
  intros H (a & b & N & (p & Hp & Ep) & (q & Hq & Eq)).
  assert (exists y, In y l /\ snd y <> m) as (y & Hy & Ny).
  { destruct (Req_dec a m); [exists q|exists p]; split; congruence || auto. }
  apply (wsum_pos (fun a => (a - m) ^ 2) l y); [assumption|intros; apply pow2_ge_0|assumption|].
  rewrite <- Rsqr_pow2. apply Rsqr_pos_lt. lra.
Qed.

Lemma normal_opt_ineq V N s t : 0 < V -> 0 < N -> s = sqrt (V / N) ->
  - V * / (2 * exp t ^ 2) - N * t <= - V * / (2 * s ^ 2) - N * ln s.
Proof.
  intros HV HN Es. assert (0 < V / N) as Q by now apply Rdiv_lt_0_compat.
  assert (0 < s) as Ps by (rewrite Es; now apply sqrt_lt_R0).
  assert (s ^ 2 = V / N) as E2 by (rewrite Es, <- Rsqr_pow2; apply Rsqr_sqrt; lra).
  pose proof (exp_pos t) as Pe.
  pose proof (ln_le_sub1 ((s / exp t) ^ 2) ltac:(apply pow_lt, Rdiv_lt_0_compat; lra)) as L.
  replace (ln ((s / exp t) ^ 2)) with (2 * (ln s - t)) in L.
  2:{ replace ((s / exp t) ^ 2) with (s / exp t * (s / exp t)) by ring. assert (0 < s / exp t) by (apply Rdiv_lt_0_compat; lra).
      rewrite ln_mult by assumption. unfold Rdiv. rewrite ln_mult, ln_Rinv, ln_exp by (try apply Rinv_0_lt_compat; lra). ring. }
  replace ((s / exp t) ^ 2) with (V / N * / exp t ^ 2) in L by (rewrite <- E2; field; lra).
  apply (Rmult_le_compat_l (N / 2)) in L; [|lra].
  replace (N / 2 * (V / N * / exp t ^ 2 - 1)) with (V * / (2 * exp t ^ 2) - N / 2) in L by (field; lra).
  replace (- V * / (2 * s ^ 2)) with (- (N / 2)) by (rewrite E2; field; lra). lra.
Qed.

Lemma opt_normal m0 ls0 ulp t l : 0 < t -> sample_ok (FNormal m0 ls0) l -> interior (FNormal m0 ls0) l ->
  exists fm, stored_fam (est_normal ulp false (XR t) l) = Some fm /\ same_family (FNormal m0 ls0) fm /\ optimal fm l.
Proof.
  intros Ht H HI. pose proof (sample_wpos _ _ H) as W. pose proof (S0_pos l (proj1 H) W) as P0.
  set (u := S1 l / S0 l). assert (0 < Sdev u l) as PV by (apply Sdev_pos; assumption).
  assert (0 < Sdev u l / S0 l) as PQ by now apply Rdiv_lt_0_compat.
  assert (0 < sqrt (Sdev u l / S0 l)) as PS by now apply sqrt_lt_R0.
  unfold est_normal. rewrite (ratio t (S1 l)) by assumption. fold u. rewrite ratio by assumption.
  cbn [xsqrt]. unfold rlt. destruct (Rlt_dec (Sdev u l / S0 l) 0) as [|_]; [lra|].
  rewrite edge_lb_in by assumption. unfold stored_fam. cbn [store]. rewrite xlog_pos by assumption.
  eexists. split; [reflexivity|]. split; [exact I|].
  intros fm' E. destruct fm' as [| | | | | | | | | |m' ls']; try contradiction.
  rewrite !wll_normal, exp_ln by assumption. rewrite (Sdev_shift m' l) by assumption. fold u.
  pose proof (normal_opt_ineq (Sdev u l) (S0 l) _ ls' PV P0 eq_refl) as K.
  pose proof (exp_pos ls') as Pe.
  assert (0 <= S0 l * (u - m') ^ 2 * / (2 * exp ls' ^ 2)).
  { apply Rmult_le_pos; [apply Rmult_le_pos; [lra|apply pow2_ge_0]|]. apply Rlt_le, Rinv_0_lt_compat. pose proof (pow_lt _ 2 Pe). lra. }
  replace (- (Sdev u l + S0 l * (u - m') ^ 2) * / (2 * exp ls' ^ 2)) with (- Sdev u l * / (2 * exp ls' ^ 2) - S0 l * (u - m') ^ 2 * / (2 * exp ls' ^ 2)) by ring.
  lra.
Qed.

(** ** laplace *)
Lemma rinsert_perm a l : Permutation (a :: l) (rinsert a l).
Proof.
  induction l as [|b l IH]; [reflexivity|]. cbn. destruct (Rle_dec a b); [reflexivity|].
  rewrite perm_swap. now constructor.
Qed.
Lemma rsort_perm l : Permutation l (rsort l).
Proof.
  induction l as [|a l IH]; [reflexivity|]. cbn. rewrite <- rinsert_perm. now constructor.
Qed.
Lemma rinsert_sorted a l : StronglySorted Rle l -> StronglySorted Rle (rinsert a l).
Proof.
  induction 1 as [|b l HS IH HF]; cbn; [repeat constructor|].
  destruct (Rle_dec a b) as [L|L].
  - constructor; [now constructor|]. constructor; [assumption|]. eapply Forall_impl; [|exact HF]. intros; lra.
  - constructor; [assumption|]. apply Forall_forall. intros y Hy.
    apply (Permutation_in _ (Permutation_sym (rinsert_perm a l))) in Hy. destruct Hy as [<-|Hy]; [lra|].
    rewrite Forall_forall in HF. auto.
Qed.
Lemma rsort_sorted l : StronglySorted Rle (rsort l).
Proof. induction l as [|a l IH]; cbn; [constructor|]. now apply rinsert_sorted. Qed.

Lemma sorted_nth l d : StronglySorted Rle l -> forall i j, (i <= j < length l)%nat -> nth i l d <= nth j l d.
Proof.
  induction 1 as [|b l HS IH HF]; intros i j H; cbn in H; [lia|].
  destruct i as [|i], j as [|j]; cbn; try lra; try lia.
  - rewrite Forall_forall in HF. apply HF, nth_In. lia.
  - apply IH. lia.
Qed.

(** sums of nonincreasing-in-position parts: split at the median *)
Lemma sum_sign l i m : StronglySorted Rle l -> (i < length l)%nat -> m = nth i l 0 ->
  forall t, m <= t -> INR (i + 1) - INR (length l - (i + 1)) >= 0 ->
  lsumR (map (fun x => Rabs (x - m)) l) <= lsumR (map (fun x => Rabs (x - t)) l).
Proof.
  intros HS Hi Em t Ht HC.
  rewrite <- (firstn_skipn (i + 1) l). rewrite !map_app, !lsumR_app.
  assert (lsumR (map (fun x => Rabs (x - m) + (t - m)) (firstn (i + 1) l)) <= lsumR (map (fun x => Rabs (x - t)) (firstn (i + 1) l))) as A.
  { apply lsumR_map_le. intros x Hx. apply (In_nth _ _ 0) in Hx. destruct Hx as (j & Hj & <-).
    rewrite firstn_length in Hj. rewrite <- (firstn_skipn (i+1) l) in Em.
    assert (nth j (firstn (i + 1) l) 0 <= m).
    { rewrite Em. rewrite app_nth1 by (rewrite firstn_length; lia).
      rewrite <- (app_nth1 (firstn (i + 1) l) (skipn (i + 1) l) 0) by (rewrite firstn_length; lia).
      rewrite <- (app_nth1 (firstn (i + 1) l) (skipn (i + 1) l) 0 (n := i)) by (rewrite firstn_length; lia).
      rewrite firstn_skipn. apply sorted_nth; [assumption|]. lia. }
    rewrite !Rabs_left1 by lra. lra. }
  assert (lsumR (map (fun x => Rabs (x - m) + - (t - m)) (skipn (i + 1) l)) <= lsumR (map (fun x => Rabs (x - t)) (skipn (i + 1) l))) as B.
  { apply lsumR_map_le. intros x _. pose proof (Rabs_triang (x - t) (t - m)) as T. replace (x - t + (t - m)) with (x - m) in T by ring.
    rewrite (Rabs_pos_eq (t - m)) in T by lra. lra. }
  rewrite lsumR_map_plus in A, B.
  assert (forall (c : R) (k : list R), lsumR (map (fun _ => c) k) = INR (length k) * c) as CC.
  { intros c k. induction k as [|a k IH]; [cbn; ring|]. cbn [map lsumR length]. rewrite IH, S_INR. ring. }
  rewrite CC in A, B. rewrite firstn_length, Nat.min_l in A by lia. rewrite skipn_length in B.
  assert (0 <= (INR (i + 1) - INR (length l - (i + 1))) * (t - m)) by (apply Rmult_le_pos; lra). lra.
Qed.

Lemma sum_sign' l i m : StronglySorted Rle l -> (i < length l)%nat -> m = nth i l 0 ->
  forall t, t <= m -> INR (length l - i) - INR i >= 0 ->
  lsumR (map (fun x => Rabs (x - m)) l) <= lsumR (map (fun x => Rabs (x - t)) l).
Proof.
  intros HS Hi Em t Ht HC.
  rewrite <- (firstn_skipn i l). rewrite !map_app, !lsumR_app.
  assert (lsumR (map (fun x => Rabs (x - m) + (m - t)) (skipn i l)) <= lsumR (map (fun x => Rabs (x - t)) (skipn i l))) as A.
  { apply lsumR_map_le. intros x Hx. apply (In_nth _ _ 0) in Hx. destruct Hx as (j & Hj & <-).
    rewrite skipn_length in Hj.
    assert (m <= nth j (skipn i l) 0).
    { rewrite Em. replace (nth j (skipn i l) 0) with (nth (i + j) l 0).
      - apply sorted_nth; [assumption|]. lia.
      - rewrite <- (firstn_skipn i l) at 1. rewrite app_nth2 by (rewrite firstn_length; lia). f_equal. rewrite firstn_length. lia. }
    rewrite !Rabs_pos_eq by lra. lra. }
  assert (lsumR (map (fun x => Rabs (x - m) + - (m - t)) (firstn i l)) <= lsumR (map (fun x => Rabs (x - t)) (firstn i l))) as B.
  { apply lsumR_map_le. intros x _. pose proof (Rabs_triang (x - t) (t - m)) as T. replace (x - t + (t - m)) with (x - m) in T by ring.
    rewrite (Rabs_left1 (t - m)) in T by lra. lra. }
  rewrite lsumR_map_plus in A, B.
  assert (forall (c : R) (k : list R), lsumR (map (fun _ => c) k) = INR (length k) * c) as CC.
  { intros c k. induction k as [|a k IH]; [cbn; ring|]. cbn [map lsumR length]. rewrite IH, S_INR. ring. }
  rewrite CC in A, B. rewrite skipn_length in A. rewrite firstn_length, Nat.min_l in B by lia.
  assert (0 <= (INR (length l - i) - INR i) * (m - t)) by (apply Rmult_le_pos; lra). lra.
Qed.

Lemma lsumR_perm {A} (g : A -> R) l l' : Permutation l l' -> lsumR (map g l) = lsumR (map g l').
Proof. induction 1; cbn; lra. Qed.

Lemma median_spec l : l <> [] -> exists m, median l = XR m /\
  forall t, lsumR (map (fun x => Rabs (x - m)) l) <= lsumR (map (fun x => Rabs (x - t)) l).
Proof.
  intros Hn. pose proof (rsort_perm l) as P. pose proof (rsort_sorted l) as S.
  pose proof (Permutation_length P) as EL. assert (0 < length l)%nat as L by (destruct l; [congruence|cbn; lia]).
  set (i := ((length l - 1) / 2)%nat).
  assert (i < length (rsort l))%nat as Hi.
  { rewrite <- EL. unfold i. apply Nat.le_lt_trans with (length l - 1)%nat; [|lia]. apply Nat.div_le_upper_bound; lia. }
  pose proof (Nat.div_mod (length l - 1) 2 ltac:(lia)) as DM. fold i in DM.
  pose proof (Nat.mod_upper_bound (length l - 1) 2 ltac:(lia)) as MB.
  exists (nth i (rsort l) 0). split.
  - unfold median. fold i. rewrite (nth_indep _ XNan (XR 0)) by now rewrite map_length. now rewrite map_nth.
  - intros t. rewrite !(lsumR_perm _ _ _ P). destruct (Rle_or_lt (nth i (rsort l) 0) t) as [Ht|Ht].
    + apply (sum_sign (rsort l) i _ S Hi eq_refl); [assumption|]. apply Rge_minus, Rle_ge, le_INR. rewrite <- EL. lia.
    + apply (sum_sign' (rsort l) i _ S Hi eq_refl); [lra|]. apply Rge_minus, Rle_ge, le_INR. rewrite <- EL. lia.
Qed.

Lemma score_laplace m ls a : score (FLaplace m ls) a = - (ln (2 * exp ls) + Rabs (a - m) * / exp ls).
Proof. unfold score, fam_lp. cbn [supp lp_formula]. unfold Rdiv. ring. Qed.

Lemma wll_laplace m ls l : wll (FLaplace m ls) l = - (S0 l * (ln 2 + ls)) - Sabs m l * / exp ls.
Proof.
  unfold wll, Sabs, S0.
  replace (- (lsumR (map fst l) * (ln 2 + ls)) - lsumR (map (fun p => fst p * Rabs (snd p - m)) l) * / exp ls)
    with (lsumR (map fst l) * - (ln 2 + ls) + lsumR (map (fun p => fst p * Rabs (snd p - m)) l) * - / exp ls) by ring.
  rewrite <- !lsumR_map_scal_r, <- lsumR_map_plus. apply lsumR_map_ext. intros p _.
  rewrite score_laplace, ln_mult, ln_exp by (try apply exp_pos; lra). ring.
Qed.

Lemma opt_laplace m0 ls0 ulp t l : 0 < t -> sample_ok (FLaplace m0 ls0) l -> interior (FLaplace m0 ls0) l ->
  exists fm, stored_fam (est_laplace ulp (XR t) l) = Some fm /\ same_family (FLaplace m0 ls0) fm /\ optimal fm l.
Proof.
  intros Ht H [HI HE]. pose proof (sample_wpos _ _ H) as W. pose proof (S0_pos l (proj1 H) W) as P0.
  destruct (median_spec (map snd l)) as (m & Em & Hm).
  { destruct H as [Hn _]. destruct l; [congruence|discriminate]. }
  assert (exists w, 0 < w /\ forall p, In p l -> fst p = w) as (w & Pw & Hw).
  { destruct l as [|p l]; [destruct H; congruence|]. exists (fst p). split; [now inversion W|]. intros q Hq. apply HE; [assumption|now left]. }
  assert (forall c, Sabs c l = w * lsumR (map (fun x => Rabs (x - c)) (map snd l))) as ES.
  { intros c. unfold Sabs. rewrite map_map, <- lsumR_map_scal. apply lsumR_map_ext. intros p Hp. now rewrite Hw. }
  assert (0 < Sabs m l) as PA.
  { destruct HI as (a & b & N & (p & Hp & Ep) & (q & Hq & Eq)).
    assert (exists y, In y l /\ snd y <> m) as (y & Hy & Ny).
    { destruct (Req_dec a m); [exists q|exists p]; split; congruence || auto. }
    apply (wsum_pos (fun a => Rabs (a - m)) l y); [assumption|intros; apply Rabs_pos|assumption|]. apply Rabs_pos_lt. lra. }
  unfold est_laplace. rewrite Em. rewrite ratio by assumption.
  assert (0 < Sabs m l / S0 l) as PQ by now apply Rdiv_lt_0_compat.
  rewrite edge_lb_in by assumption. unfold stored_fam. cbn [store]. rewrite xlog_pos by assumption.
  eexists. split; [reflexivity|]. split; [exact I|].
  intros fm' E. destruct fm' as [| | | | | | | | |m' ls'|]; try contradiction.
  rewrite !wll_laplace, exp_ln by assumption.
  assert (Sabs m l <= Sabs m' l) as LE by (rewrite !ES; apply Rmult_le_compat_l; [lra|apply Hm]).
  pose proof (exp_pos (- ls')) as Pe.
  pose proof (pois_ineq (S0 l) (Sabs m l) (exp (- ls')) P0 PA Pe) as K. rewrite ln_exp in K.
  replace (ln (S0 l / Sabs m l)) with (- ln (Sabs m l / S0 l)) in K.
  2:{ unfold Rdiv. rewrite !ln_mult, !ln_Rinv by (try apply Rinv_0_lt_compat; lra). ring. }
  rewrite exp_Ropp in K, Pe. 
  replace (Sabs m l * / (Sabs m l / S0 l)) with (S0 l) by (field; lra).
  replace (Sabs m l * (S0 l / Sabs m l)) with (S0 l) in K by (field; lra).
  assert (Sabs m l * / exp ls' <= Sabs m' l * / exp ls') by (apply Rmult_le_compat_r; lra). lra.
Qed.
