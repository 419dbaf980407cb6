(** Top-level facts on the APC latent statistics. *)
From Coq Require Import List Arith ZArith Bool Reals Lra Lia.
From Verif Require Import Base ScopeModel CircuitModel CircuitBasics CircuitEval Integral LeafModel LeafProofs LeafSpec LeafNorm LeafTop CtxModel CtxProofs ApcModel ApcSpec ApcNorm ApcDisc.
Import ListNotations.
Local Open Scope R_scope.

Lemma clamp_id lo hi x : lo <= x <= hi -> clamp lo hi x = x.
Proof. intros H. unfold clamp. rewrite Rmax_left, Rmin_left; lra. Qed.
Lemma clamp_in lo hi x : lo <= hi -> lo <= clamp lo hi x <= hi.
Proof. intros H. unfold clamp. pose proof (Rmax_r x lo). pose proof (Rmin_r (Rmax x lo) hi). split; [|assumption]. apply Rmin_glb; lra. Qed.
Lemma clamp_min_pos eps x : 0 < eps -> 0 < clamp_min eps x.
Proof. intros H. unfold clamp_min. pose proof (Rmax_r x eps). lra. Qed.
Lemma exp_ln_clamp eps v : 0 < eps -> exp (ln (clamp_min eps v)) = Rmax v eps.
Proof. intros H. rewrite exp_ln; [reflexivity|now apply clamp_min_pos]. Qed.
Lemma exp_ln_clamp_ge eps v : 0 < eps -> eps <= v -> exp (ln (clamp_min eps v)) = v.
Proof. intros H L. rewrite exp_ln_clamp by assumption. apply Rmax_left. lra. Qed.

Lemma pq_id eps p : eps <= p <= 1 - eps -> pclamp eps p = p /\ qclamp eps p = 1 - p.
Proof. intros H. unfold qclamp, pclamp. rewrite (clamp_id eps (1 - eps) p) by assumption. split; [reflexivity|]. apply clamp_id. lra. Qed.
Lemma bern_kl_id eps p : eps <= p <= 1 - eps -> bern_kl eps p = hkl p.
Proof. intros H. unfold bern_kl, hkl. destruct (pq_id eps p H) as [-> ->]. reflexivity. Qed.

Lemma softmax_le1 K lg k : (k < K)%nat -> softmax K lg k <= 1.
Proof.
  intros H. rewrite <- (softmax_sum K lg) by lia. apply bsum_term_le; [assumption|]. intros. left. apply softmax_pos. lia.
Qed.

Lemma cat_id eps K lg k : 0 < eps -> (0 < K)%nat -> (forall k, (k < K)%nat -> eps <= softmax K lg k) -> (k < K)%nat ->
  cat_clamp eps K (clamp eps 1) (softmax K lg) k = softmax K lg k.
Proof.
  intros He HK H Hk. unfold cat_clamp.
  assert (forall j, (j < K)%nat -> clamp eps 1 (softmax K lg j) = softmax K lg j) as E.
  { intros j Hj. apply clamp_id. split; [now apply H|now apply softmax_le1]. }
  rewrite E, (bsum_ext K _ (softmax K lg)) by auto. rewrite softmax_sum by assumption.
  unfold clamp_min. rewrite Rmax_left; [field|]. pose proof (H 0%nat HK). pose proof (softmax_le1 K lg 0 HK). lra.
Qed.

Lemma stats_exact eps r s f : 0 < eps -> unclamped eps r -> rec_fam r = Some f -> entry_stats eps r = Ok s ->
  mean_of f (zs_mu s) /\ (exists v, var_of f v /\ (eps <= v -> exp (zs_logvar s) = v)) /\ kl_of f (prior f) (zs_kld s).
Proof.
  intros He U F E. destruct r as [m ls|m sc|l|p|n l|n p|K lg|K p]; cbn [rec_fam] in F; try discriminate; injection F as <-;
    cbn [entry_stats] in E; cbn [unclamped] in U.
  - injection E as <-. unfold normal_stats; cbn [zs_mu zs_logvar zs_kld prior]. split; [|split].
    + apply normal_mean.
    + eexists. split; [apply normal_var|]. intros _. replace (2 * ls) with (ls + ls) by ring. rewrite exp_plus. ring.
    + pose proof (normal_kl m ls) as K. replace (exp (2 * ls)) with (exp ls ^ 2); [exact K|].
      replace (2 * ls) with (ls + ls) by ring. rewrite exp_plus. ring.
  - injection E as <-. destruct U as [U1 U2]. unfold normal_stats; cbn [zs_mu zs_logvar zs_kld prior].
    assert (clamp_min eps (sc * (sc * 1)) = sc ^ 2) as C by (unfold clamp_min; apply Rmax_left; lra).
    rewrite C. assert (0 < sc ^ 2) as P by (apply pow_lt; assumption).
    assert (ln (sc ^ 2) = 2 * ln sc) as L. { replace (sc ^ 2) with (sc * sc) by ring. rewrite ln_mult by assumption. ring. }
    split; [|split].
    + apply normal_mean.
    + eexists. split; [apply normal_var|]. intros _. rewrite exp_ln, exp_ln by assumption. reflexivity.
    + rewrite L. pose proof (normal_kl m (ln sc)) as K. rewrite exp_ln in K by assumption. exact K.
  - injection E as <-. unfold bernoulli_stats; cbn [zs_mu zs_logvar zs_kld prior]. destruct (pq_id _ _ U) as [Ep Eq].
    rewrite bern_kl_id, Eq, Ep by assumption. split; [|split].
    + apply bern_mean.
    + eexists. split; [apply bern_var|]. now apply exp_ln_clamp_ge.
    + apply bern_kl_of.
  - injection E as <-. unfold binomial_stats; cbn [zs_mu zs_logvar zs_kld prior]. destruct (pq_id _ _ U) as [Ep Eq].
    rewrite bern_kl_id, Eq, Ep by assumption. split; [|split].
    + apply binom_mean.
    + eexists. split; [apply binom_var|]. now apply exp_ln_clamp_ge.
    + apply binom_kl.
  - destruct U as [HK U]. destruct (Nat.eqb_spec K 0); [lia|]. injection E as <-. unfold categorical_stats; cbn [zs_mu zs_logvar zs_kld prior].
    assert (forall g, bsum K (fun k => cat_clamp eps K (clamp eps 1) (softmax K lg) k * g k) = bsum K (fun k => softmax K lg k * g k)) as G.
    { intros g. apply bsum_ext. intros k Hk. now rewrite cat_id. }
    rewrite !G. split; [|split].
    + apply cat_mean.
    + eexists. split; [now apply cat_var|]. now apply exp_ln_clamp_ge.
    + rewrite (bsum_ext K _ (fun k => softmax K lg k * (ln (softmax K lg k) + ln (INR K)))).
      2:{ intros k Hk. now rewrite cat_id. }
      now apply cat_kl.
Qed.

(** ** nonnegativity *)
Lemma ln_le_sub x : 0 < x -> ln x <= x - 1.
Proof.
  intros H. destruct (Req_dec x 1) as [->|N]; [rewrite ln_1; lra|].
  pose proof (exp_ineq1 (ln x)) as E. rewrite exp_ln in E by assumption. assert (ln x <> 0). { intros Q. apply N. rewrite <- (exp_ln x), Q, exp_0 by assumption. reflexivity. }
  specialize (E H0). lra.
Qed.

Lemma hkl_nonneg p : 0 < p < 1 -> 0 <= hkl p.
Proof.
  intros H. unfold hkl. rewrite ln_half.
  pose proof (ln_le_sub (/ (2 * p)) ltac:(apply Rinv_0_lt_compat; lra)) as A.
  pose proof (ln_le_sub (/ (2 * (1 - p))) ltac:(apply Rinv_0_lt_compat; lra)) as B.
  rewrite ln_Rinv, ln_mult in A, B by lra.
  apply (Rmult_le_compat_l p) in A; [|lra]. apply (Rmult_le_compat_l (1 - p)) in B; [|lra].
  assert (p * (/ (2 * p) - 1) + (1 - p) * (/ (2 * (1 - p)) - 1) = 0) by (field; lra). lra.
Qed.

Lemma bern_kl_nonneg eps p : 0 < eps < 1 / 2 -> 0 <= bern_kl eps p.
Proof.
  intros H. assert (eps <= pclamp eps p <= 1 - eps) as B by (apply clamp_in; lra).
  unfold bern_kl. replace (qclamp eps p) with (1 - pclamp eps p).
  - apply hkl_nonneg. lra.
  - unfold qclamp. symmetry. apply clamp_id. lra.
Qed.

Lemma cat_clamp_facts eps K f p : 0 < eps -> (0 < K)%nat -> (forall k, (k < K)%nat -> eps <= f (p k)) ->
  (forall k, (k < K)%nat -> 0 < cat_clamp eps K f p k) /\ bsum K (cat_clamp eps K f p) = 1.
Proof.
  intros He HK Hf. set (T := bsum K (fun j => f (p j))).
  assert (eps <= T) as HT.
  { unfold T. apply Rle_trans with (f (p 0%nat)); [now apply Hf|]. apply (bsum_term_le K (fun j => f (p j))); [lia|].
    intros j Hj. pose proof (Hf j Hj). lra. }
  assert (clamp_min eps T = T) as CT by (unfold clamp_min; apply Rmax_left; lra).
  split.
  - intros k Hk. unfold cat_clamp. fold T. rewrite CT. pose proof (Hf k Hk). apply Rdiv_lt_0_compat; lra.
  - unfold cat_clamp. fold T. rewrite CT, bsum_div. fold T. field. lra.
Qed.

Lemma cat_kl_nonneg K p : (0 < K)%nat -> (forall k, (k < K)%nat -> 0 < p k) -> bsum K p = 1 ->
  0 <= bsum K (fun k => p k * (ln (p k) + ln (INR K))).
Proof.
  intros HK P T. assert (0 < INR K) as NK by (apply lt_0_INR; lia).
  replace 0 with (bsum K (fun k => p k - / INR K)).
  - apply bsum_le. intros k Hk. pose proof (P k Hk) as Pk.
    pose proof (ln_le_sub (/ (INR K * p k)) ltac:(apply Rinv_0_lt_compat, Rmult_lt_0_compat; assumption)) as A.
    rewrite ln_Rinv, ln_mult in A by (try apply Rmult_lt_0_compat; assumption).
    apply (Rmult_le_compat_l (p k)) in A; [|lra].
    assert (p k * (/ (INR K * p k) - 1) = / INR K - p k) by (field; lra). lra.
  - rewrite (bsum_ext K _ (fun k => p k + -1 * / INR K)) by (intros; ring). rewrite bsum_plus, T, bsum_const. field. lra.
Qed.

Lemma kld_nonneg eps r s : 0 < eps < 1 / 2 -> entry_stats eps r = Ok s -> 0 <= zs_kld s.
Proof.
  intros He E. destruct r as [m ls|m sc|l|p|n l|n p|K lg|K p]; cbn [entry_stats] in E.
  - injection E as <-. cbn. pose proof (exp_ineq1_le (2 * ls)). pose proof (pow2_ge_0 m). cbn in *. lra.
  - injection E as <-. cbn [zs_kld normal_stats]. set (s2 := clamp_min eps _).
    assert (0 < s2) by (apply clamp_min_pos; lra). pose proof (ln_le_sub s2 ltac:(assumption)). pose proof (pow2_ge_0 m). lra.
  - injection E as <-. now apply bern_kl_nonneg.
  - injection E as <-. now apply bern_kl_nonneg.
  - injection E as <-. cbn. apply Rmult_le_pos; [apply pos_INR|now apply bern_kl_nonneg].
  - injection E as <-. cbn. apply Rmult_le_pos; [apply pos_INR|now apply bern_kl_nonneg].
  - destruct (Nat.eqb_spec K 0); [discriminate|]. injection E as <-. unfold categorical_stats. cbn [zs_kld].
    destruct (cat_clamp_facts eps K (clamp eps 1) (softmax K lg)) as [A B]; [lra|lia| |].
    { intros k _. apply clamp_in. lra. }
    apply cat_kl_nonneg; [lia|assumption|assumption].
  - destruct (Nat.eqb_spec K 0); [discriminate|]. injection E as <-. unfold categorical_stats. cbn [zs_kld].
    set (q := cat_clamp eps K (clamp_min eps) p).
    destruct (cat_clamp_facts eps K (clamp eps 1) q) as [A B]; [lra|lia| |].
    { intros k _. apply clamp_in. lra. }
    apply cat_kl_nonneg; [lia|assumption|assumption].
Qed.

Lemma row_nonneg eps rs : 0 < eps < 1 / 2 -> forall ss k, row_stats eps rs = Ok (ss, k) -> 0 <= k.
Proof.
  intros He. induction rs as [|r rs IH]; cbn; intros ss k E; [injection E as _ <-; lra|].
  destruct (entry_stats eps r) as [s|] eqn:E1; [|discriminate]. destruct (row_stats eps rs) as [[ss' k']|]; [|discriminate].
  injection E as _ <-. pose proof (kld_nonneg eps r s He E1). pose proof (IH ss' k' eq_refl). lra.
Qed.

(** ** the product distribution *)
Lemma sr_ext ds : forall f g u, (forall z, f z = g z) -> sums_rows ds f u -> sums_rows ds g u.
Proof.
  induction ds as [|d ds IH]; cbn; intros f g u H; [now rewrite H|]. intros (h & A & B). exists h. split; [|exact B].
  intros a. apply (IH (fun l => f (a :: l))); [intros; apply H|apply A].
Qed.
Lemma sr_plus ds : forall f g u v, sums_rows ds f u -> sums_rows ds g v -> sums_rows ds (fun z => f z + g z) (u + v).
Proof.
  induction ds as [|d ds IH]; cbn; intros f g u v; [now intros -> ->|]. intros (h & A & B) (h' & A' & B').
  exists (fun a => h a + h' a). split; [|now apply sums_plus]. intros a. now apply IH.
Qed.
Lemma sr_scal ds : forall f c u, sums_rows ds f u -> sums_rows ds (fun z => c * f z) (c * u).
Proof.
  induction ds as [|d ds IH]; cbn; intros f c u; [now intros ->|]. intros (h & A & B).
  exists (fun a => c * h a). split; [|now apply sums_scal]. intros a. now apply IH.
Qed.

(** a latent family and its prior live on the same support *)
Definition latent_fam (f : fam) : Prop := exists r, rec_fam r = Some f.
Lemma dens_nonneg f a : 0 <= dens f a.
Proof. apply pr_nonneg. Qed.
Lemma dens_prior f a : latent_fam f -> dens f a = 0 \/ (0 < dens f a /\ 0 < dens (prior f) a).
Proof.
  intros [r E]. unfold dens, fam_lp.
  destruct r; cbn [rec_fam] in E; try discriminate; injection E as <-; cbn [prior supp lp_formula].
  all: try (right; split; apply exp_pos).
  all: destruct (asnat a) as [k|]; [|left; reflexivity].
  all: destruct (_ : bool); [right; split; apply exp_pos|left; reflexivity].
Qed.

Lemma pdens_prior fs : (forall f, In f fs -> latent_fam f) -> forall z, pdens fs z = 0 \/ (0 < pdens fs z /\ 0 < pdens (map prior fs) z).
Proof.
  induction fs as [|f fs IH]; intros H [|a z]; cbn; try (left; reflexivity); [right; lra|].
  destruct (dens_prior f a) as [E|[E1 E2]]; [apply H; now left| |]. { left. rewrite E. ring. }
  destruct (IH (fun g Hg => H g (or_intror Hg)) z) as [E|[E3 E4]]. { left. rewrite E. ring. }
  right. split; apply Rmult_lt_0_compat; assumption.
Qed.

Lemma kl_product fs : (forall f, In f fs -> latent_fam f /\ sums (range_of f) (dens f) 1) ->
  forall ks, Forall2 (fun f k => kl_of f (prior f) k) fs ks ->
  sums_rows (map range_of fs) (pdens fs) 1 /\ kl_rows fs (lsumR ks).
Proof.
  unfold kl_rows. induction fs as [|f fs IH]; intros H ks F; inversion F as [|? k ? ks' K F']; subst.
  - cbn. split; [reflexivity|]. replace (1 / 1) with 1 by field. rewrite ln_1. ring.
  - destruct (IH (fun g Hg => H g (or_intror Hg)) _ F') as [N1 N2]. destruct (H f (or_introl eq_refl)) as [L1 L2].
    cbn [map sums_rows pdens lsumR]. split.
    + exists (fun a => dens f a * 1). split; [intros a; now apply sr_scal|].
      apply (sums_ext _ (dens f)); [intros; ring|exact L2].
    + exists (fun a => (dens f a * ln (dens f a / dens (prior f) a)) * 1 + dens f a * lsumR ks'). split.
      * intros a. apply (sr_ext _ (fun z => (dens f a * ln (dens f a / dens (prior f) a)) * pdens fs z
           + dens f a * (pdens fs z * ln (pdens fs z / pdens (map prior fs) z)))).
        -- intros z. destruct (dens_prior f a L1) as [->|[P1 P2]]; [ring|].
           destruct (pdens_prior fs (fun g Hg => proj1 (H g (or_intror Hg))) z) as [->|[P3 P4]]; [ring|].
           rewrite !ln_quot, !ln_mult by (try apply Rmult_lt_0_compat; assumption). ring.
        -- apply sr_plus; apply sr_scal; assumption.
      * apply (sums_eq _ _ (k + lsumR ks' * 1)); [ring|].
        apply sums_plus; [|apply (sums_ext _ (fun a => lsumR ks' * dens f a)); [intros; ring|now apply sums_scal]].
        apply (sums_ext _ (fun a => dens f a * ln (dens f a / dens (prior f) a))); [intros; ring|exact K].
Qed.

Lemma latent_norm f : latent_fam f -> (forall K lg, f = FCategorical K lg -> (0 < K)%nat) -> sums (range_of f) (dens f) 1.
Proof.
  intros [r E] HK.
  destruct r; cbn [rec_fam] in E; try discriminate; injection E as <-; try apply normal_norm.
  - cbn [range_of sums map lsumR]. rewrite dens_b0, dens_b1. ring.
  - apply (sums_ext _ (fun a => 1 * dens (FBinomial n logit) a)); [intros; unfold dens; ring|].
    apply (binom_sums n logit (fun _ => 1)). apply bexp_one.
  - apply sums_range. rewrite (bsum_ext _ _ (softmax K logits)).
    + apply softmax_sum. now apply (HK K logits).
    + intros k Hk. now apply dens_cat.
Qed.

Lemma row_exact eps rs : 0 < eps -> Forall (unclamped eps) rs ->
  forall ss k fs, row_stats eps rs = Ok (ss, k) -> map rec_fam rs = map Some fs -> kl_rows fs k.
Proof.
  intros He U ss k fs E F.
  enough (exists ks, Forall2 (fun f k => kl_of f (prior f) k) fs ks /\ lsumR ks = k /\
     forall f, In f fs -> latent_fam f /\ sums (range_of f) (dens f) 1) as (ks & A & <- & B).
  { now apply kl_product. }
  revert ss k fs E F. induction U as [|r rs Ur U IH]; intros ss k fs E F; cbn in *.
  - injection E as _ <-. destruct fs; [|discriminate]. exists []. repeat split; try constructor; contradiction.
  - destruct fs as [|f fs]; [discriminate|]. cbn in F. injection F as Ff F.
    destruct (entry_stats eps r) as [s|] eqn:E1; [|discriminate]. destruct (row_stats eps rs) as [[ss' k']|]; [|discriminate].
    injection E as _ <-. destruct (IH ss' k' fs eq_refl F) as (ks & A & B & C).
    destruct (stats_exact eps r s f He Ur Ff E1) as (_ & _ & K).
    exists (zs_kld s :: ks). split; [now constructor|]. split; [cbn; now rewrite B|].
    intros g [<-|Hg]; [|now apply C]. assert (latent_fam f) as L by (exists r; exact Ff). split; [exact L|].
    apply latent_norm; [exact L|]. intros K' lg ->. destruct r; cbn [rec_fam] in Ff; try discriminate. injection Ff as -> ->. apply Ur.
Qed.

(** ** modes *)
Lemma rfloor_nat x : 0 <= x -> exists m, rfloor x = INR m /\ INR m <= x < INR m + 1.
Proof.
  intros H. unfold rfloor. pose proof (base_Int_part x) as [A B]. exists (Z.to_nat (Int_part x)).
  assert (0 <= Int_part x)%Z as P. { assert (-1 < Int_part x)%Z; [|lia]. apply lt_IZR. cbn. lra. }
  rewrite INR_IZR_INZ, Z2Nat.id by assumption. split; [reflexivity|lra].
Qed.

Lemma decode_mode eps r s f : resolvable eps r -> rec_fam r = Some f -> entry_stats eps r = Ok s -> is_mode f (zs_decode s).
Proof.
  intros [He U] F E. destruct r as [m ls|m sc|l|p|n l|n p|K lg|K p]; cbn [rec_fam] in F; try discriminate; injection F as <-;
    cbn [entry_stats] in E.
  - injection E as <-. apply normal_mode.
  - injection E as <-. apply normal_mode.
  - injection E as <-. unfold bernoulli_stats. cbn [zs_decode]. pose proof (sigmoid_range l).
    assert (1 / 2 <= pclamp eps (sigmoid l) <-> 1 / 2 <= sigmoid l) as T.
    { unfold pclamp, clamp. destruct (Rle_dec (sigmoid l) eps), (Rle_dec (1 - eps) (sigmoid l)).
      - lra.
      - rewrite Rmax_right, Rmin_left by lra. lra.
      - rewrite Rmax_left, Rmin_right by lra. lra.
      - rewrite Rmax_left, Rmin_left by lra. lra. }
    unfold is_mode, in_range. cbn [range_of]. destruct (Rle_dec (1 / 2) (pclamp eps (sigmoid l))) as [L|L].
    + apply T in L. split; [right; now left|]. intros b [<-|[<-|[]]]; rewrite ?dens_b0, ?dens_b1; lra.
    + assert (~ 1 / 2 <= sigmoid l) by tauto. split; [now left|]. intros b [<-|[<-|[]]]; rewrite ?dens_b0, ?dens_b1; lra.
  - injection E as <-. unfold binomial_stats. cbn [zs_decode]. pose proof (sigmoid_range l) as Sr.
    set (q := pclamp eps (sigmoid l)). assert (eps <= q <= 1 - eps) as Q by (apply clamp_in; lra).
    pose proof (pos_INR n) as Pn.
    destruct (rfloor_nat ((INR n + 1) * q)) as (m & -> & M). { apply Rmult_le_pos; lra. }
    assert (m <= n)%nat as Hm.
    { enough (m < S n)%nat by lia. apply INR_lt. rewrite S_INR. apply Rle_lt_trans with ((INR n + 1) * q); [lra|].
      rewrite <- Rmult_1_r. apply Rmult_lt_compat_l; lra. }
    rewrite Rmax_left by apply pos_INR. rewrite Rmin_left by now apply le_INR.
    apply binom_mode; [exact Hm| |].
    + intros k Hk. assert (INR (S k) <= INR m) as A by (apply le_INR; lia).
      destruct (Rle_dec (sigmoid l) eps) as [L|L].
      * exfalso. assert (q = eps) as Eq by (unfold q, pclamp, clamp; rewrite Rmax_right, Rmin_left by lra; reflexivity).
        rewrite Eq in M. destruct m as [|m]; [lia|].
        assert (1 <= INR (S m)) by (rewrite S_INR; pose proof (pos_INR m); lra). lra.
      * destruct (Rle_dec (1 - eps) (sigmoid l)) as [L2|L2].
        -- assert (INR (S k) <= INR n) by (apply le_INR; lia). nra.
        -- assert (q = sigmoid l) as <- by (unfold q; apply clamp_id; lra). lra.
    + intros k Hk. assert (INR m + 1 <= INR (S k)) as A by (rewrite S_INR; apply Rplus_le_compat_r, le_INR; lia).
      destruct (Rle_dec (sigmoid l) eps) as [L|L].
      * apply Rle_trans with 1; [|rewrite S_INR; pose proof (pos_INR k); lra]. apply Rle_trans with ((INR n + 1) * eps); [|lra].
        apply Rmult_le_compat_l; lra.
      * destruct (Rle_dec (1 - eps) (sigmoid l)) as [L2|L2].
        -- exfalso. assert (q = 1 - eps) as Eq by (unfold q, pclamp, clamp; rewrite Rmax_left, Rmin_right by lra; reflexivity).
           rewrite Eq in M. assert (INR (S m) <= INR n) by (apply le_INR; lia). rewrite S_INR in *. lra.
        -- assert (q = sigmoid l) as <- by (unfold q; apply clamp_id; lra). lra.
  - destruct (Nat.eqb_spec K 0) as [|HK]; [discriminate|]. injection E as <-. unfold categorical_stats. cbn [zs_decode].
    set (p := cat_clamp eps K (clamp eps 1) (softmax K lg)). set (j := rargmax K p).
    assert (j < K)%nat as Hj by (apply rargmax_lt; lia).
    apply cat_mode; [exact Hj|].
    assert (forall i, (i < K)%nat -> clamp eps 1 (softmax K lg i) = Rmax (softmax K lg i) eps) as C.
    { intros i Hi. unfold clamp. apply Rmin_left. pose proof (softmax_le1 K lg i Hi). apply Rmax_lub; lra. }
    assert (forall i, (i < K)%nat -> Rmax (softmax K lg i) eps <= Rmax (softmax K lg j) eps) as M.
    { intros i Hi. pose proof (rargmax_max K p i Hi) as A. fold j in A. unfold p, cat_clamp in A.
      rewrite !C in A by assumption. set (T := clamp_min eps _) in A. assert (0 < T) by (apply clamp_min_pos; lra).
      apply (Rmult_le_reg_r (/ T)); [now apply Rinv_0_lt_compat|exact A]. }
    destruct (Rle_dec eps (softmax K lg j)) as [L|L].
    + intros i Hi. pose proof (M i Hi) as A. rewrite (Rmax_left (softmax K lg j)) in A by lra.
      pose proof (Rmax_l (softmax K lg i) eps). lra.
    + exfalso. assert (forall i, (i < K)%nat -> softmax K lg i <= eps) as A.
      { intros i Hi. pose proof (M i Hi) as A. rewrite (Rmax_right (softmax K lg j)) in A by lra.
        pose proof (Rmax_l (softmax K lg i) eps). lra. }
      assert (0 < bsum K (fun i => eps - softmax K lg i)) as B.
      { apply Rlt_le_trans with (eps - softmax K lg j); [lra|].
        apply (bsum_term_le K (fun i => eps - softmax K lg i)); [exact Hj|]. intros i Hi. pose proof (A i Hi). lra. }
      rewrite (bsum_ext K _ (fun i => eps + -1 * softmax K lg i)) in B by (intros; ring).
      rewrite bsum_plus, bsum_scal, bsum_const, softmax_sum in B by lia. lra.
Qed.
