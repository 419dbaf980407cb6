(** The theorems about maximum_likelihood_estimation of a whole leaf. *)
From Coq Require Import List Arith ZArith Bool Reals Lra Lia.
From Verif Require Import Base ScopeModel CircuitModel CircuitBasics CircuitEval Integral MargProofs LeafModel LeafSpec LeafProofs EmProofs MleModel MleSpec MleProofs MleProofs2 LeafTop.
Import ListNotations.
Local Open Scope R_scope.

Lemma has_nan_spec F o : has_nan F o = false <-> complete F o.
Proof.
  unfold has_nan, complete. split.
  - intros H f Hf E. assert (existsb (fun f => isnone (o_cell o f)) (seq 0 F) = true) as T; [|congruence].
    apply existsb_exists. exists f. split; [apply in_seq; lia|now rewrite E].
  - intros H. destruct (existsb _ _) eqn:E; [|reflexivity]. apply existsb_exists in E. destruct E as (f & Hf & E).
    apply in_seq in Hf. specialize (H f ltac:(lia)). destruct (o_cell o f); [discriminate|congruence].
Qed.

Lemma samples_column F f c r d l : (f < F)%nat -> samples F f c r d l -> l = column f c r (filter (fun o => negb (has_nan F o)) d).
Proof.
  intros Hf H. induction H as [|o a d l Hc Ha _ IH|o d l Hc _ IH]; [reflexivity| |].
  - cbn. rewrite (proj2 (has_nan_spec F o) Hc). cbn. rewrite Ha, IH. reflexivity.
  - cbn. destruct (has_nan F o) eqn:E; [exact IH|]. apply has_nan_spec in E. contradiction.
Qed.

Lemma samples_exist F f c r d : (f < F)%nat -> exists l, samples F f c r d l.
Proof.
  intros Hf. induction d as [|o d [l IH]]; [eexists; constructor|].
  destruct (has_nan F o) eqn:E.
  - exists l. constructor; [|assumption]. intros C. apply has_nan_spec in C. congruence.
  - apply has_nan_spec in E. destruct (o_cell o f) as [a|] eqn:Ea; [|exfalso; apply (E f Hf Ea)].
    eexists. apply samples_keep; eauto.
Qed.

(** the rows kept are the complete ones *)
Lemma apply_nan_ok F C P ns d d' s : apply_nan F C P ns d = Ok (d', s) ->
  d' = filter (fun o => negb (has_nan F o)) d /\ s = xdiv (XR (INR (length d'))) (XR (wtotal F C P d')).
Proof.
  unfold apply_nan. destruct (forallb (all_nan F) d); [discriminate|].
  destruct (existsb (has_nan F) d) eqn:E; cbn.
  - destruct ns; try discriminate. cbn. intros [= <- <-]. auto.
  - intros [= <- <-]. split; [|reflexivity]. symmetry. clear - E. induction d as [|o d IH]; [reflexivity|].
    cbn in *. apply orb_false_iff in E. destruct E as [E1 E2]. rewrite E1. cbn. now rewrite IH.
Qed.

Lemma wtotal_pos F C P f c r d : (f < F)%nat -> (c < C)%nat -> (r < P)%nat -> weights_nonneg d -> d <> [] ->
  (forall o, In o d -> 0 < o_w o f c r) -> 0 < wtotal F C P d.
Proof.
  intros Hf Hc Hr HN Hd HP. unfold wtotal.
  assert (forall o, In o d -> 0 < bsum F (fun f => bsum C (fun c => bsum P (fun r => o_w o f c r)))) as K.
  { intros o Ho. pose proof (HP o Ho) as P0. pose proof (HN o) as N0.
    eapply Rlt_le_trans; [exact P0|].
    eapply Rle_trans; [apply (bsum_term_le P (fun r => o_w o f c r) r); [assumption|]; intros; auto|].
    eapply Rle_trans; [apply (bsum_term_le C (fun c => bsum P (fun r => o_w o f c r)) c); [assumption|]; intros; apply bsum_nonneg; auto|].
    apply (bsum_term_le F (fun f => bsum C (fun c => bsum P (fun r => o_w o f c r))) f); [assumption|].
    intros; apply bsum_nonneg; intros; apply bsum_nonneg; auto. }
  destruct d as [|o d]; [congruence|]. cbn [map lsumR].
  assert (0 <= lsumR (map (fun o => bsum F (fun f => bsum C (fun c => bsum P (fun r => o_w o f c r)))) d)).
  { apply lsumR_map_nonneg. intros o' Ho'. apply Rlt_le, K. now right. }
  pose proof (K o (or_introl eq_refl)). lra.
Qed.

(** an entry's estimate on a successful call *)
Lemma mle_entry F C P fams ulp bc ns d res f c r l :
  mle F C P fams ulp bc ns d = Ok res -> (f < F)%nat -> (c < C)%nat -> (r < P)%nat ->
  weights_nonneg d -> samples F f c r d l -> sample_ok (fams f c r) l ->
  exists t, 0 < t /\ res f c r = estimate_of (fams f c r) ulp bc (XR t) l.
Proof.
  intros H Hf Hc Hr HN HS HO. unfold mle in H. destruct (apply_nan F C P ns d) as [[d' s]|] eqn:E; cbn in H; [|discriminate].
  apply apply_nan_ok in E. destruct E as [-> ->]. injection H as <-.
  pose proof (samples_column _ _ _ _ _ _ Hf HS) as EL. set (d' := filter (fun o => negb (has_nan F o)) d) in *.
  pose proof (sample_wpos _ _ HO) as W.
  assert (d' <> []) as Nd. { intros Z. rewrite EL, Z in HO. destruct HO as [N _]. now apply N. }
  assert (0 < wtotal F C P d') as PW.
  { apply (wtotal_pos F C P f c r); auto.
    - intros o f' c' r' Ho. apply HN. unfold d' in Ho. apply filter_In in Ho. apply Ho.
    - intros o Ho. rewrite EL in W. unfold wpos in W. rewrite Forall_forall in W.
      specialize (W (o_w o f c r, match o_cell o f with Some a => a | None => 0 end)). apply W.
      unfold column. exact (in_map (fun o => (o_w o f c r, match o_cell o f with Some a => a | None => 0 end)) d' o Ho). }
  exists (INR (length d') / wtotal F C P d'). split.
  - apply Rdiv_lt_0_compat; [|assumption]. apply lt_0_INR. destruct d'; [congruence|cbn; lia].
  - rewrite <- EL. destruct (Req_EM_T (wtotal F C P d') 0); [lra|reflexivity].
Qed.

Lemma mle_optimal F C P fams ulp ns d res f c r l :
  mle F C P fams ulp false ns d = Ok res -> (f < F)%nat -> (c < C)%nat -> (r < P)%nat ->
  weights_nonneg d -> samples F f c r d l -> sample_ok (fams f c r) l -> interior (fams f c r) l ->
  exists fm, holds res f c r fm /\ same_family (fams f c r) fm /\ maximises fm l.
Proof.
  intros H Hf Hc Hr HN HS HO HI. destruct (mle_entry _ _ _ _ _ _ _ _ _ _ _ _ _ H Hf Hc Hr HN HS HO) as (t & Ht & E).
  unfold holds. rewrite E.
  assert (forall e, estimate_of (fams f c r) ulp false (XR t) l = Some e ->
    (exists fm, stored_fam e = Some fm /\ same_family (fams f c r) fm /\ optimal fm l) ->
    exists fm, (exists e, estimate_of (fams f c r) ulp false (XR t) l = Some e /\ stored_fam e = Some fm) /\ same_family (fams f c r) fm /\ maximises fm l) as K.
  { intros e E1 (fm & A & B & D). exists fm. split; [eauto|]. split; [assumption|]. exact D. }
  destruct (fams f c r) as [z|K0 z|n z|z|z|r0 z|K1 N0 n|lo hi|z|m ls|m ls]; try contradiction.
  - eapply K; [reflexivity|]. eapply opt_bernoulli; eauto.
  - destruct (opt_categorical K0 z ulp false t l Ht HO HI) as (e & fm & A & B). eapply K; eauto.
  - eapply K; [reflexivity|]. eapply opt_binomial; eauto.
  - eapply K; [reflexivity|]. eapply opt_geometric; eauto.
  - eapply K; [reflexivity|]. eapply opt_poisson; eauto.
  - eapply K; [reflexivity|]. eapply opt_negbin; eauto.
  - eapply K; [reflexivity|]. eapply opt_exponential; eauto.
  - eapply K; [reflexivity|]. eapply opt_laplace; eauto.
  - eapply K; [reflexivity|]. eapply opt_normal; eauto.
Qed.

(** ** admissible parameters on any sample *)
Lemma mle_admissible F C P fams ulp ns d res f c r l :
  mle F C P fams ulp false ns d = Ok res -> (f < F)%nat -> (c < C)%nat -> (r < P)%nat ->
  weights_nonneg d -> samples F f c r d l -> sample_ok (fams f c r) l -> ulp < / 2 ->
  (match fams f c r with FCategorical _ _ | FBinomial _ _ | FPoisson _ | FNegBin _ _ | FNormal _ _ | FLaplace _ _ => True | _ => False end) ->
  exists fm, holds res f c r fm /\ same_family (fams f c r) fm.
Proof.
  intros H Hf Hc Hr HN HS HO HU HF. destruct (mle_entry _ _ _ _ _ _ _ _ _ _ _ _ _ H Hf Hc Hr HN HS HO) as (t & Ht & E).
  unfold holds. rewrite E. pose proof (sample_wpos _ _ HO) as W. pose proof (S0_pos l (proj1 HO) W) as P0.
  assert (forall e, estimate_of (fams f c r) ulp false (XR t) l = Some e ->
    (exists fm, stored_fam e = Some fm /\ same_family (fams f c r) fm) ->
    exists fm, (exists e, estimate_of (fams f c r) ulp false (XR t) l = Some e /\ stored_fam e = Some fm) /\ same_family (fams f c r) fm) as K.
  { intros e E1 (fm & A & B). exists fm. split; [eauto|assumption]. }
  destruct (fams f c r) as [z|K0 z|n z|z|z|r0 z|K1 N0 n|lo hi|z|m ls|m ls]; try contradiction.
  - destruct (cat_stored K0 z ulp false t l Ht HO) as (e & lg & E1 & E2 & _). exists (FCategorical K0 lg). split; [eauto|reflexivity].
  - eapply K; [reflexivity|]. unfold est_binomial, stored_fam. cbn [store].
    match goal with |- context [edge_cases ulp ?x _ _] => destruct (edge_both ulp x HU) as (p & -> & Hp) end.
    rewrite xlogit_in by assumption. eexists. split; reflexivity.
  - eapply K; [reflexivity|]. unfold est_poisson, stored_fam. cbn [store]. rewrite ratio by assumption.
    destruct (edge_lb ulp (XR (S1 l / S0 l)) ltac:(discriminate)) as (p & -> & Hp). rewrite xlog_pos by assumption.
    eexists. split; [reflexivity|exact I].
  - eapply K; [reflexivity|]. unfold est_negbin, stored_fam. cbn [store].
    match goal with |- context [edge_cases ulp ?x _ _] => destruct (edge_both ulp x HU) as (p & -> & Hp) end.
    rewrite xlogit_in by assumption. eexists. split; reflexivity.
  - destruct (median_spec (map snd l)) as (q & Em & _). { destruct HO as [Hn _]. destruct l; [congruence|discriminate]. }
    eapply K; [reflexivity|]. unfold est_laplace, stored_fam. rewrite Em, ratio by assumption. cbn [store].
    destruct (edge_lb ulp (XR (Sabs q l / S0 l)) ltac:(discriminate)) as (p & -> & Hp). rewrite xlog_pos by assumption.
    eexists. split; [reflexivity|exact I].
  - eapply K; [reflexivity|]. unfold est_normal, stored_fam. rewrite (ratio t (S1 l)), ratio by assumption. cbn [store].
    set (u := S1 l / S0 l). cbn [xsqrt]. unfold rlt. destruct (Rlt_dec (Sdev u l / S0 l) 0) as [L|_].
    + exfalso. pose proof (Sdev_nonneg u l W). assert (0 <= Sdev u l / S0 l) by (apply Rle_mult_inv_pos; lra). lra.
    + destruct (edge_lb ulp (XR (sqrt (Sdev u l / S0 l))) ltac:(discriminate)) as (p & -> & Hp). rewrite xlog_pos by assumption.
      eexists. split; [reflexivity|exact I].
Qed.

(** categorical: never far from the optimum *)
Lemma mle_categorical_near F C P fams ulp bc ns d res f c r l K z :
  mle F C P fams ulp bc ns d = Ok res -> (f < F)%nat -> (c < C)%nat -> (r < P)%nat ->
  weights_nonneg d -> samples F f c r d l -> sample_ok (fams f c r) l -> fams f c r = FCategorical K z ->
  exists lg, holds res f c r (FCategorical K lg) /\
    forall lg', wll (FCategorical K lg') l <= wll (FCategorical K lg) l + lsumR (map fst l) * (INR K * / 10000000000).
Proof.
  intros H Hf Hc Hr HN HS HO EF. destruct (mle_entry _ _ _ _ _ _ _ _ _ _ _ _ _ H Hf Hc Hr HN HS HO) as (t & Ht & E).
  rewrite EF in HO, E. destruct (cat_stored K z ulp bc t l Ht HO) as (e & lg & E1 & E2 & E3).
  exists lg. split.
  - unfold holds. rewrite E. eauto.
  - intros lg'. pose proof (cat_gap K z l lg lg' HO E3) as G. pose proof (pcat_sum K z l HO) as [Z1 Z2].
    pose proof (sample_wpos _ _ HO) as W. pose proof (S0_pos l (proj1 HO) W) as P0.
    pose proof (ln_le_sub1 (bsum K (pcat l)) ltac:(lra)) as L. unfold cl in Z2.
    assert (S0 l * ln (bsum K (pcat l)) <= S0 l * (INR K * / 10000000000)) by (apply Rmult_le_compat_l; lra).
    unfold S0 in *. lra.
Qed.

(** ** C82 / C83: the bias-corrected scale *)
Lemma column_unweighted f c r (d : list (nat -> option R)) : column f c r (unweighted d) =
  map (fun x => (1, match x f with Some a => a | None => 0 end)) d.
Proof. unfold column, unweighted. rewrite map_map. reflexivity. Qed.

Lemma wtotal_unweighted F C P (d : list (nat -> option R)) : wtotal F C P (unweighted d) = INR (length d) * (INR F * (INR C * INR P)).
Proof.
  unfold wtotal, unweighted. rewrite map_map. cbn [o_w].
  rewrite (lsumR_map_ext _ (fun _ => INR F * (INR C * INR P))).
  - induction d as [|x d IH]; [cbn; ring|]. cbn [map lsumR length]. rewrite IH, S_INR. ring.
  - intros x _. rewrite (bsum_ext F _ (fun _ => INR C * INR P)); [apply bsum_const|].
    intros f _. rewrite (bsum_ext C _ (fun _ => INR P)); [apply bsum_const|]. intros c _. rewrite bsum_const. ring.
Qed.

Lemma apply_nan_complete F C P ns d : d <> [] -> (0 < F)%nat -> (forall o, In o d -> complete F o) ->
  apply_nan F C P ns d = Ok (d, xdiv (XR (INR (length d))) (XR (wtotal F C P d))).
Proof.
  intros Hd HF HC. unfold apply_nan.
  replace (forallb (all_nan F) d) with false.
  - replace (existsb (has_nan F) d) with false; [reflexivity|]. symmetry. apply not_true_is_false. intros E.
    apply existsb_exists in E. destruct E as (o & Ho & E). rewrite (proj2 (has_nan_spec F o) (HC o Ho)) in E. discriminate.
  - symmetry. apply not_true_is_false. intros E. destruct d as [|o d]; [congruence|]. cbn in E. apply andb_true_iff in E. destruct E as [E _].
    unfold all_nan in E. rewrite allb_true in E. specialize (E 0%nat HF). specialize (HC o (or_introl eq_refl) 0%nat HF).
    destruct (o_cell o 0%nat); [discriminate|congruence].
Qed.

Lemma S0_ones l : S0 (map (fun a : R => (1, a)) l) = INR (length l).
Proof. unfold S0. rewrite map_map. cbn [fst]. induction l as [|a l IH]; [reflexivity|]. cbn [map lsumR length]. rewrite IH, S_INR. ring. Qed.
Lemma S1_ones l : S1 (map (fun a : R => (1, a)) l) = lsumR l.
Proof. unfold S1. rewrite map_map. cbn [fst snd]. induction l as [|a l IH]; [reflexivity|]. cbn [map lsumR]. rewrite IH. ring. Qed.
Lemma Sdev_ones m l : Sdev m (map (fun a : R => (1, a)) l) = lsumR (map (fun a => (a - m) ^ 2) l).
Proof. unfold Sdev. rewrite map_map. cbn [fst snd]. apply lsumR_map_ext. intros; ring. Qed.

(** values of complete unweighted rows *)
Definition rows1 (l : list R) : list (nat -> option R) := map (fun a => fun _ => Some a) l.

Lemma bias_corrected_normal fams ulp ns (d : list (nat -> option R)) vals m0 ls0 :
  (1 < length vals)%nat -> Forall2 (fun x a => x 0%nat = Some a) d vals -> (exists a b, In a vals /\ In b vals /\ a <> b) ->
  fams 0%nat 0%nat 0%nat = FNormal m0 ls0 ->
  exists res ls, mle 1 1 1 fams ulp true ns (unweighted d) = Ok res /\ holds res 0 0 0 (FNormal (mean vals) ls) /\
    exp ls ^ 2 = unbiased_var vals.
Proof.
  intros HL HF HD EF.
  assert (length d = length vals) as EL by (clear - HF; induction HF; cbn; congruence).
  assert (column 0 0 0 (unweighted d) = map (fun a => (1, a)) vals) as EC.
  { rewrite column_unweighted. clear - HF. induction HF as [|x a d vals Hx _ IH]; [reflexivity|]. cbn. now rewrite Hx, IH. }
  assert (1 < INR (length vals)) as P1 by (change 1 with (INR 1); now apply lt_INR).
  set (n := INR (length vals)) in *.
  assert (0 < lsumR (map (fun a => (a - mean vals) ^ 2) vals)) as PV.
  { rewrite <- Sdev_ones. apply Sdev_pos.
    - apply Forall_forall. intros p Hp. apply in_map_iff in Hp. destruct Hp as (a & <- & _). cbn. lra.
    - destruct HD as (a & b & Ha & Hb & N). exists a, b. split; [assumption|].
      split; [exists (1, a)|exists (1, b)]; (split; [apply in_map_iff; eauto|reflexivity]). }
  unfold mle. rewrite apply_nan_complete.
  2:{ destruct d; [cbn in EL; lia|discriminate]. }
  2:lia.
  2:{ intros o Ho f Hf. apply in_map_iff in Ho. destruct Ho as (x & <- & Hx). cbn. assert (f = 0)%nat by lia. subst f.
      clear - HF Hx. induction HF as [|y a d vals Hy _ IH]; [destruct Hx|]. destruct Hx as [<-|Hx]; [congruence|auto]. }
  cbn [bind]. rewrite wtotal_unweighted. unfold unweighted at 1. rewrite map_length, EL. fold n.
  replace (n * (INR 1 * (INR 1 * INR 1))) with n by (cbn; ring). rewrite xdiv_R by lra.
  replace (n / n) with 1 by (field; lra).
  eexists. exists (ln (sqrt (unbiased_var vals))). split; [reflexivity|].
  assert (0 < unbiased_var vals) as PU by (unfold unbiased_var; apply Rdiv_lt_0_compat; [assumption|fold n; lra]).
  split.
  - unfold holds. rewrite EF, EC. eexists. split; [reflexivity|].
    unfold est_normal. rewrite S0_ones, S1_ones. fold n. cbn [xmul].
    rewrite xdiv_R by lra. replace (1 * lsumR vals / (1 * n)) with (mean vals) by (unfold mean; fold n; field; lra).
    rewrite Sdev_ones. cbn [xmul xsub xadd xneg]. rewrite xdiv_R by lra.
    replace (1 * lsumR (map (fun a => (a - mean vals) ^ 2) vals) / (1 * n + - (1))) with (unbiased_var vals) by (unfold unbiased_var; fold n; field; lra).
    cbn [xsqrt]. unfold rlt. destruct (Rlt_dec (unbiased_var vals) 0); [lra|].
    pose proof (sqrt_lt_R0 _ PU). rewrite edge_lb_in by assumption. unfold stored_fam. cbn [store]. now rewrite xlog_pos.
  - rewrite exp_ln by now apply sqrt_lt_R0. rewrite <- Rsqr_pow2. apply Rsqr_sqrt. lra.
Qed.
