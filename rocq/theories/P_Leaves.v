(** Properties C29-C31 and C81-C88: leaf families, projections, estimation. *)
From Coq Require Import List Arith ZArith Bool Reals Lra Lia.
From Verif Require Import Base ScopeModel CircuitModel CircuitSpec CircuitEval Integral CircuitMarg LeafModel LeafSpec LeafProofs LeafNorm LeafTop MleModel MleSpec MleProofs MleTop CircuitExamples.
Import ListNotations.
Local Open Scope R_scope.

(** C29: the projections map into the constraint set and are inverse to each other. *)
Theorem C29_real_to_bounded : forall x lb ub y,
  (forall l u, lb = Some l -> ub = Some u -> l < u) -> proj_real_to_bounded x lb ub = Ok y ->
  (forall l, lb = Some l -> l < y) /\ (forall u, ub = Some u -> y < u) /\ proj_bounded_to_real y lb ub = Ok x.
Proof.
  intros x lb ub y H E. pose proof (real_to_bounded_range x lb ub y H E) as [A B].
  exact (conj A (conj B (bounded_to_real_inv x lb ub y H E))).
Qed.
Print Assumptions C29_real_to_bounded.

Theorem C29_bounded_to_real : forall y lb ub, (lb <> None \/ ub <> None) ->
  (forall l, lb = Some l -> l < y) -> (forall u, ub = Some u -> y < u) ->
  exists x, proj_bounded_to_real y lb ub = Ok x /\ proj_real_to_bounded x lb ub = Ok y.
Proof. exact real_to_bounded_inv. Qed.
Print Assumptions C29_bounded_to_real.

Theorem C29_convex : forall n x, (0 < n)%nat ->
  (forall i, (i < n)%nat -> 0 < proj_real_to_convex n x i) /\ bsum n (proj_real_to_convex n x) = 1.
Proof. intros n x H. exact (conj (fun i Hi => softmax_pos n x i H) (softmax_sum n x H)). Qed.
Print Assumptions C29_convex.

Theorem C29_convex_inverse : forall n w, (forall i, (i < n)%nat -> 0 < w i) -> bsum n w = 1 ->
  forall i, (i < n)%nat -> proj_real_to_convex n (proj_convex_to_real w) i = w i.
Proof. exact convex_roundtrip. Qed.
Print Assumptions C29_convex_inverse.

Example C29_nonvacuous : proj_real_to_bounded 0 (Some 1) (Some 3) = Ok 2.
Proof. unfold proj_real_to_bounded, sigmoid. f_equal. rewrite Ropp_0, exp_0. field. Qed.

(** C88: both bounds default to None, and then both functions raise. *)
Theorem C88_unbounded_refuted : forall x, proj_real_to_bounded x None None = Err /\ proj_bounded_to_real x None None = Err.
Proof. intros x. exact (conj eq_refl eq_refl). Qed.
Print Assumptions C88_unbounded_refuted.

(** C30: every family is a normalised distribution over its range ... *)
Theorem C30_families_normalised : forall fm, fam_ok fm = true -> sums (range_of fm) (fun a => pr (fam_lp fm a)) 1.
Proof. exact fam_norm. Qed.
Print Assumptions C30_families_normalised.

(** ... discrete families also over all naturals, so that leaves of different
    families can share a variable ... *)
Theorem C30_discrete_normalised : forall fm, fam_ok fm = true -> discrete fm -> sums DNat (fun a => pr (fam_lp fm a)) 1.
Proof. exact fam_norm_nat. Qed.
Print Assumptions C30_discrete_normalised.

(** ... with the textbook mass functions and densities ... *)
Theorem C30_mass_functions :
  (forall l k, (k < 2)%nat -> pr (fam_lp (FBernoulli l) (INR k)) = if Nat.eqb k 1 then sigmoid l else 1 - sigmoid l) /\
  (forall K lg k, (k < K)%nat -> pr (fam_lp (FCategorical K lg) (INR k)) = exp (lg k) / bsum K (fun j => exp (lg j))) /\
  (forall n l k, (k <= n)%nat -> pr (fam_lp (FBinomial n l) (INR k)) = Binomial.C n k * sigmoid l ^ k * (1 - sigmoid l) ^ (n - k)) /\
  (forall l k, pr (fam_lp (FGeometric l) (INR k)) = sigmoid l * (1 - sigmoid l) ^ k) /\
  (forall lr k, pr (fam_lp (FPoisson lr) (INR k)) = exp (- exp lr) * exp lr ^ k / INR (fact k)) /\
  (forall r l k, (0 < r)%nat -> pr (fam_lp (FNegBin r l) (INR k)) = Binomial.C (r + k - 1) k * sigmoid l ^ k * (1 - sigmoid l) ^ r) /\
  (forall K N n k, (K <= N)%nat -> (n <= N)%nat -> (k <= n)%nat ->
     pr (fam_lp (FHyper K N n) (INR k)) = ch K k * ch (N - K) (n - k) / ch N n) /\
  (forall m ls a, pr (fam_lp (FNormal m ls) a) = exp (- ((a - m) / exp ls) ^ 2 / 2) / (exp ls * sqrt (2 * PI))).
Proof.
  split; [exact pr_bernoulli|]. split; [exact pr_categorical|]. split; [exact pr_binomial|]. split; [exact pr_geometric|].
  split; [exact pr_poisson|]. split.
  { intros r l k Hr. rewrite pr_negbin. destruct r; [lia|reflexivity]. }
  split; [exact pr_hyper|exact normal_density].
Qed.
Print Assumptions C30_mass_functions.

(** ... and circuits over leaves of these families are normalised. *)
Theorem C30_circuit : forall D m s f c r,
  built m -> aligned m -> Forall (family_leaf D) (leaves_of m) -> ll_shape m = Ok s -> in_shape s f c r ->
  forall vs x, NoDup vs -> (forall v, In v vs <-> In v (nth f (fts m) [])) ->
  sums_over D vs (fun y => prob m y f c r) x 1.
Proof. exact families_normalised. Qed.
Print Assumptions C30_circuit.

Definition exL : leaf := fl_leaf (mk_fleaf (mkScope [0; 1]%nat []) 2 1 (fun f c _ =>
  match f, c with O, O => FPoisson 1 | O, _ => FBinomial 3 0 | _, O => FNormal 0 0 | _, _ => FLaplace 1 0 end)) (fun _ _ _ => 0).
Example C30_nonvacuous : family_leaf (fun v => match v with O => DNat | _ => DReal end) exL.
Proof.
  eexists. eexists. split; [reflexivity|]. cbn. intros f c r Hf Hc _.
  destruct f as [|[|f]]; [| |lia]; (destruct c as [|[|c]]; [| |lia]); (split; [reflexivity|]).
  - left; reflexivity.
  - right. split; [discriminate|reflexivity].
  - left; reflexivity.
  - left; reflexivity.
Qed.

(** C31: with bias_correction=False, at every entry whose (complete) samples lie in
    the support and do not force a parameter to its boundary, the stored parameters
    are finite and maximise the weighted log-likelihood within the family. *)
Theorem C31_mle_maximises : forall F C P fams ulp ns d res f c r l,
  mle F C P fams ulp false ns d = Ok res -> (f < F)%nat -> (c < C)%nat -> (r < P)%nat ->
  weights_nonneg d -> samples F f c r d l -> sample_ok (fams f c r) l -> interior (fams f c r) l ->
  exists fm, holds res f c r fm /\ same_family (fams f c r) fm /\ maximises fm l.
Proof. exact mle_optimal. Qed.
Print Assumptions C31_mle_maximises.

Theorem C31_mle_admissible : forall F C P fams ulp ns d res f c r l,
  mle F C P fams ulp false ns d = Ok res -> (f < F)%nat -> (c < C)%nat -> (r < P)%nat ->
  weights_nonneg d -> samples F f c r d l -> sample_ok (fams f c r) l -> ulp < / 2 ->
  (match fams f c r with FCategorical _ _ | FBinomial _ _ | FPoisson _ | FNegBin _ _ | FNormal _ _ | FLaplace _ _ => True | _ => False end) ->
  exists fm, holds res f c r fm /\ same_family (fams f c r) fm.
Proof. exact mle_admissible. Qed.
Print Assumptions C31_mle_admissible.

(** A categorical leaf is near-optimal on any sample. *)
Theorem C31_categorical_near_optimal : forall F C P fams ulp bc ns d res f c r l K z,
  mle F C P fams ulp bc ns d = Ok res -> (f < F)%nat -> (c < C)%nat -> (r < P)%nat ->
  weights_nonneg d -> samples F f c r d l -> sample_ok (fams f c r) l -> fams f c r = FCategorical K z ->
  exists lg, holds res f c r (FCategorical K lg) /\
    forall lg', wll (FCategorical K lg') l <= wll (FCategorical K lg) l + lsumR (map fst l) * (INR K * / 10000000000).
Proof. exact mle_categorical_near. Qed.
Print Assumptions C31_categorical_near_optimal.

(** Samples: rows with a missing cell are dropped by nan_strategy='ignore'. *)
Definition exD : list obs :=
  [mkObs (fun f => match f with O => Some 1 | _ => Some 3 end) (fun _ _ _ => 1);
   mkObs (fun f => match f with O => Some 0 | _ => None end) (fun _ _ _ => 1);
   mkObs (fun f => match f with O => Some 0 | _ => Some 5 end) (fun _ _ _ => 2)].
Definition exF : nat -> nat -> nat -> fam := fun f _ _ => match f with O => FBernoulli 0 | _ => FNormal 0 0 end.
Example C31_nonvacuous : exists res, mle 2 1 1 exF 0 false NsIgnore exD = Ok res /\ weights_nonneg exD /\
  (samples 2 0 0 0 exD [(1, 1); (2, 0)] /\ sample_ok (exF 0 0 0)%nat [(1, 1); (2, 0)] /\ interior (exF 0 0 0)%nat [(1, 1); (2, 0)]) /\
  (samples 2 1 0 0 exD [(1, 3); (2, 5)] /\ sample_ok (exF 1 0 0)%nat [(1, 3); (2, 5)] /\ interior (exF 1 0 0)%nat [(1, 3); (2, 5)]).
Proof.
  assert (complete 2 (nth 0 exD (mkObs (fun _ => None) (fun _ _ _ => 0)))) as C0 by (intros [|[|f]] Hf; [discriminate|discriminate|lia]).
  assert (complete 2 (nth 2 exD (mkObs (fun _ => None) (fun _ _ _ => 0)))) as C2 by (intros [|[|f]] Hf; [discriminate|discriminate|lia]).
  assert (~ complete 2 (nth 1 exD (mkObs (fun _ => None) (fun _ _ _ => 0)))) as C1 by (intros H; apply (H 1%nat); [lia|reflexivity]).
  eexists. split; [reflexivity|]. split.
  { intros o f c r [<-|[<-|[<-|[]]]]; cbn; lra. }
  split; (split; [unfold exD; apply samples_keep; [exact C0|reflexivity|]; apply samples_drop; [exact C1|]; apply samples_keep; [exact C2|reflexivity|]; apply samples_nil|]).
  - split.
    + split; [discriminate|]. constructor; [|constructor; [|constructor]]; cbn [fst snd]; (split; [lra|]); cbn [exF supp]; rewrite ?asnat_0, ?asnat_1; reflexivity.
    + split; [exists (2, 0)|exists (1, 1)]; (split; [cbn; tauto|reflexivity]).
  - split.
    + split; [discriminate|]. constructor; [|constructor; [|constructor]]; cbn; (split; [lra|reflexivity]).
    + exists 3, 5. split; [lra|]. split; [exists (1, 3)|exists (2, 5)]; (split; [cbn; tauto|reflexivity]).
Qed.

(** C81: samples on the boundary of the support make the stored parameters
    infinite, silently: all ones (Bernoulli), all zeros (Geometric, Exponential). *)
Lemma rep_ok k a : apply_nan 1 1 1 NsNone (unweighted (repeat (fun _ => Some a) (S k))) =
  Ok (unweighted (repeat (fun _ => Some a) (S k)), XR 1).
Proof.
  rewrite apply_nan_complete.
  - rewrite wtotal_unweighted. unfold unweighted at 2. rewrite map_length, repeat_length.
    assert (INR (S k) <> 0) by (apply not_0_INR; lia). rewrite xdiv_R by (change (INR 1) with 1; rewrite !Rmult_1_r; assumption).
    f_equal. f_equal. f_equal. change (INR 1) with 1. field. assumption.
  - discriminate.
  - lia.
  - intros o Ho f _. apply in_map_iff in Ho. destruct Ho as (x & <- & Hx). apply repeat_spec in Hx. subst x. discriminate.
Qed.
Lemma rep_S0 k a : S0 (column 0 0 0 (unweighted (repeat (fun _ => Some a) k))) = INR k.
Proof.
  rewrite column_unweighted. unfold S0. rewrite map_map. cbn [fst]. induction k as [|k IH]; [reflexivity|].
  cbn [repeat map lsumR]. rewrite IH, S_INR. ring.
Qed.
Lemma rep_S1 k a : S1 (column 0 0 0 (unweighted (repeat (fun _ => Some a) k))) = INR k * a.
Proof.
  rewrite column_unweighted. unfold S1. rewrite map_map. cbn [fst snd]. induction k as [|k IH]; [cbn; ring|].
  cbn [repeat map lsumR]. rewrite IH, S_INR. ring.
Qed.
Lemma xdiv_0 x : 0 < x -> xdiv (XR x) (XR 0) = XPInf.
Proof. intros H. unfold xdiv. destruct (Req_EM_T 0 0); [|lra]. unfold xpos. now rewrite rcmp_gt. Qed.
Lemma logit_1 : xlogit (XR 1) = XPInf.
Proof. unfold xlogit. cbn [xsub xadd xneg]. replace (1 + - (1)) with 0 by ring. rewrite xdiv_0; [reflexivity|lra]. Qed.

Theorem C81_boundary_refuted : forall ulp bc k,
  (exists res e, mle 1 1 1 (fun _ _ _ => FBernoulli 0) ulp bc NsNone (unweighted (repeat (fun _ => Some 1) (S (S k)))) = Ok res /\
     res 0%nat 0%nat 0%nat = Some e /\ store e = [XPInf]) /\
  (exists res e, mle 1 1 1 (fun _ _ _ => FGeometric 0) ulp bc NsNone (unweighted (repeat (fun _ => Some 0) (S (S k)))) = Ok res /\
     res 0%nat 0%nat 0%nat = Some e /\ store e = [XPInf]) /\
  (exists res e, mle 1 1 1 (fun _ _ _ => FExponential 0) ulp bc NsNone (unweighted (repeat (fun _ => Some 0) (S (S k)))) = Ok res /\
     res 0%nat 0%nat 0%nat = Some e /\ store e = [XPInf]).
Proof.
  intros ulp bc k. assert (1 < INR (S (S k))) as P by (rewrite !S_INR; pose proof (pos_INR k); lra).
  set (n := INR (S (S k))) in *.
  split; [|split]; unfold mle; rewrite rep_ok; cbn [bind]; eexists; eexists; (split; [reflexivity|]); (split; [reflexivity|]); cbn [estimate_of].
  - unfold est_bernoulli. rewrite rep_S0, rep_S1. fold n. rewrite ratio by lra. replace (n * 1 / n) with 1 by (field; lra).
    rewrite edge_lb_in by lra. cbn [store]. now rewrite logit_1.
  - unfold est_geometric. rewrite rep_S0, rep_S1. fold n. cbn [xmul xadd]. rewrite xdiv_R by lra.
    replace (1 * n / (1 * (n * 0) + 1 * n)) with 1 by (field; lra).
    replace (if bc then xsub (XR 1) (xdiv (xmul (XR 1) (xsub (XR 1) (XR 1))) (XR (1 * n))) else XR 1) with (XR 1).
    + rewrite edge_lb_in by lra. cbn [store]. now rewrite logit_1.
    + destruct bc; [|reflexivity]. cbn [xsub xadd xneg xmul]. rewrite xdiv_R by lra. cbn [xneg xadd]. f_equal. field. lra.
  - unfold est_exponential. rewrite rep_S0, rep_S1. fold n. cbn [xmul]. replace (1 * (n * 0)) with 0 by ring.
    assert (forall x, 0 < x -> store (EExponential (edge_cases ulp (xdiv (XR x) (XR 0)) (Some 0) None)) = [XPInf]) as K.
    { intros x Hx. rewrite xdiv_0 by assumption. reflexivity. }
    destruct bc; cbn [xsub xadd xneg]; apply K; lra.
Qed.
Print Assumptions C81_boundary_refuted.

(** C82: for a univariate leaf with one channel and one repetition, bias_correction
    yields the unbiased sample variance. *)
Theorem C82_bias_corrected_single : forall fams ulp ns d vals m0 ls0,
  (1 < length vals)%nat -> Forall2 (fun x a => x 0%nat = Some a) d vals -> (exists a b, In a vals /\ In b vals /\ a <> b) ->
  fams 0%nat 0%nat 0%nat = FNormal m0 ls0 ->
  exists res ls, mle 1 1 1 fams ulp true ns (unweighted d) = Ok res /\ holds res 0 0 0 (FNormal (mean vals) ls) /\
    exp ls ^ 2 = unbiased_var vals.
Proof. exact bias_corrected_normal. Qed.
Print Assumptions C82_bias_corrected_single.

Example C82_nonvacuous : (1 < length [0; 2])%nat /\ Forall2 (fun (x : nat -> option R) a => x 0%nat = Some a) [fun _ => Some 0; fun _ => Some 2] [0; 2] /\
  (exists a b, In a [0; 2] /\ In b [0; 2] /\ a <> b).
Proof. split; [cbn; lia|]. split; [repeat constructor|]. exists 0, 2. cbn. split; [tauto|]. split; [tauto|lra]. Qed.

(** C83: with several features (or channels, or repetitions) it does not: the
    sample size is divided by their number.  Three samples 0, 1, 2 in each of four
    features store scale 1e-8 (the unbiased variance is 1); two samples 0, 2 in each
    of two features store an infinite scale. *)
Theorem C83_bias_corrected_refuted :
  (exists res, mle 4 1 1 (fun _ _ _ => FNormal 0 0) 0 true NsNone
       (unweighted [fun _ => Some 0; fun _ => Some 1; fun _ => Some 2]) = Ok res /\
     (forall f, res f 0%nat 0%nat = Some (ENormal (XR 1) (XR (/ 100000000)))) /\ unbiased_var [0; 1; 2] = 1) /\
  (exists res, mle 2 1 1 (fun _ _ _ => FNormal 0 0) 0 true NsNone
       (unweighted [fun _ => Some 0; fun _ => Some 2]) = Ok res /\
     (forall f, res f 0%nat 0%nat = Some (ENormal (XR 1) XPInf)) /\ unbiased_var [0; 2] = 2).
Proof.
  split.
  - unfold mle. rewrite apply_nan_complete; [|discriminate|lia|].
    2:{ intros o [<-|[<-|[<-|[]]]] f _; discriminate. }
    cbn [bind]. eexists. split; [reflexivity|]. split.
    + intros f. cbn [estimate_of]. f_equal. rewrite wtotal_unweighted, column_unweighted. cbn [unweighted map length].
      rewrite xdiv_R by (cbn; lra). replace (INR 3 / (INR 3 * (INR 4 * (INR 1 * INR 1)))) with (/ 4) by (cbn; field).
      unfold est_normal, S0, S1, Sdev. cbn [map lsumR fst snd xmul]. rewrite xdiv_R by lra.
      replace (/ 4 * (1 * 0 + (1 * 1 + (1 * 2 + 0))) / (/ 4 * (1 + (1 + (1 + 0))))) with 1 by field.
      cbn [xmul xsub xadd xneg]. rewrite xdiv_R by lra. cbn [xsqrt].
      match goal with |- context [rlt ?a 0] => replace a with (-2) by field end. unfold rlt. destruct (Rlt_dec (-2) 0); [|lra].
      unfold edge_cases. cbn [xle]. pose proof base_eps_pos. rewrite rle_false by lra. reflexivity.
    + unfold unbiased_var, mean. cbn. field.
  - unfold mle. rewrite apply_nan_complete; [|discriminate|lia|].
    2:{ intros o [<-|[<-|[]]] f _; discriminate. }
    cbn [bind]. eexists. split; [reflexivity|]. split.
    + intros f. cbn [estimate_of]. f_equal. rewrite wtotal_unweighted, column_unweighted. cbn [unweighted map length].
      rewrite xdiv_R by (cbn; lra). replace (INR 2 / (INR 2 * (INR 2 * (INR 1 * INR 1)))) with (/ 2) by (cbn; field).
      unfold est_normal, S0, S1, Sdev. cbn [map lsumR fst snd xmul]. rewrite xdiv_R by lra.
      replace (/ 2 * (1 * 0 + (1 * 2 + 0)) / (/ 2 * (1 + (1 + 0)))) with 1 by field.
      cbn [xmul xsub xadd xneg]. replace (/ 2 * (1 + (1 + 0)) + - (1)) with 0 by field. rewrite xdiv_0 by lra. reflexivity.
    + unfold unbiased_var, mean. cbn. field.
Qed.
Print Assumptions C83_bias_corrected_refuted.

(** C84: a weighted Laplace estimate does not maximise the weighted likelihood. *)
Definition lapD : list obs := map (fun p => mkObs (fun _ => Some (snd p)) (fun _ _ _ => fst p)) [(1, 0); (1, 0); (10, 1)].
Theorem C84_weighted_laplace_refuted : exists res fm,
  mle 1 1 1 (fun _ _ _ => FLaplace 0 0) 0 false NsNone lapD = Ok res /\ holds res 0 0 0 fm /\
  samples 1 0 0 0 lapD [(1, 0); (1, 0); (10, 1)] /\ ~ maximises fm [(1, 0); (1, 0); (10, 1)].
Proof.
  assert (median [0; 0; 1] = XR 0) as EM.
  { unfold median, rsort. cbn [fold_right rinsert]. destruct (Rle_dec 0 1); [|lra]. cbn [rinsert].
    destruct (Rle_dec 0 0); [|lra]. reflexivity. }
  eexists. exists (FLaplace 0 (ln (10 / 12))). split; [|split; [|split]].
  - unfold mle. rewrite apply_nan_complete; [reflexivity|discriminate|lia|]. intros o [<-|[<-|[<-|[]]]] f _; discriminate.
  - unfold holds. cbn [estimate_of]. eexists. split; [reflexivity|].
    unfold wtotal, lapD. cbn [map lsumR bsum o_w fst length]. rewrite xdiv_R by lra.
    unfold column. cbn [map o_w o_cell fst snd]. unfold est_laplace. cbn [map snd]. rewrite EM.
    unfold S0, Sabs. cbn [map lsumR fst snd]. rewrite ratio by (try apply Rdiv_lt_0_compat; cbn; lra).
    match goal with |- context [XR (?a / ?b)] => replace (a / b) with (10 / 12) end.
    + rewrite edge_lb_in by lra. unfold stored_fam. cbn [store]. rewrite xlog_pos by lra. reflexivity.
    + replace (0 - 0) with 0 by ring. replace (1 - 0) with 1 by ring. rewrite Rabs_R0, Rabs_R1. field.
  - assert (forall a, complete 1 (mkObs (fun _ => Some a) (fun _ _ _ => 1))) as A by (intros a f _; discriminate).
    repeat (apply samples_keep; [intros f _; discriminate|reflexivity|]). apply samples_nil.
  - intros H. specialize (H (FLaplace 1 (ln (2 / 12))) I). rewrite !MleProofs2.wll_laplace, !exp_ln in H by lra.
    unfold S0, Sabs in H. cbn [map lsumR fst snd] in H.
    replace (0 - 0) with 0 in H by ring. replace (1 - 0) with 1 in H by ring. replace (0 - 1) with (- (1)) in H by ring. replace (1 - 1) with 0 in H by ring.
    rewrite Rabs_Ropp, Rabs_R0, Rabs_R1 in H.
    assert (ln (2 / 12) < ln (10 / 12)) by (apply ln_increasing; lra). 
    replace ((1 * 1 + (1 * 1 + (10 * 0 + 0))) * / (2 / 12)) with 12 in H by field.
    replace ((1 * 0 + (1 * 0 + (10 * 1 + 0))) * / (10 / 12)) with 12 in H by field. lra.
Qed.
Print Assumptions C84_weighted_laplace_refuted.

(** C85: nan_strategy='ignore' when no row is complete: no error, the parameters
    are replaced by 1e-8 (and a Normal mean by NaN). *)
Theorem C85_ignore_everything_refuted : forall ulp bc, exists res,
  mle 2 1 1 (fun f _ _ => match f with O => FBernoulli 0 | _ => FNormal 0 0 end) ulp bc NsIgnore
    (unweighted [fun f => match f with O => Some 1 | _ => None end; fun f => match f with O => None | _ => Some 3 end]) = Ok res /\
  res 0%nat 0%nat 0%nat = Some (EBernoulli (XR (/ 100000000))) /\
  res 1%nat 0%nat 0%nat = Some (ENormal XNan (XR (/ 100000000))).
Proof.
  intros ulp bc. unfold mle.
  assert (xdiv (XR (INR 0)) (XR 0) = XNan) as E.
  { unfold xdiv. destruct (Req_EM_T 0 0); [|lra]. unfold xpos. change (INR 0) with 0. now rewrite rcmp_eq. }
  assert (edge_cases ulp XNan (Some 0) None = XR (/ 100000000)) as E2.
  { unfold edge_cases. cbn [xle]. pose proof base_eps_pos. rewrite rle_false by lra. reflexivity. }
  assert (apply_nan 2 1 1 NsIgnore (unweighted [fun f => match f with O => Some 1 | _ => None end; fun f => match f with O => None | _ => Some 3 end])
          = Ok ([], XNan)) as E3 by (rewrite <- E; reflexivity).
  rewrite E3. cbn [bind]. eexists. split; [reflexivity|].
  cbn [column map estimate_of]. unfold est_bernoulli, est_normal. cbn [xmul xdiv xsub xadd xneg xsqrt].
  destruct bc; cbn [xdiv xsqrt]; rewrite E2; split; reflexivity.
Qed.
Print Assumptions C85_ignore_everything_refuted.

(** C87: when the channels and repetitions of a feature have the same support,
    log_likelihood raises exactly if an observed cell lies outside of it, and
    otherwise returns the families' log-probabilities (0 for a missing cell). *)
Theorem C87_validation : forall sc ch rep fams x (l := mk_fleaf sc ch rep fams),
  (0 < ch)%nat -> (0 < rep)%nat -> common_support l ->
  (forall f, (f < length (query sc))%nat -> fam_ok (fams f 0 0)%nat = true /\ imputable (fams f 0 0)%nat) ->
  (fleaf_ll l x = Err <-> exists f a, (f < length (query sc))%nat /\ x (nth f (query sc) 0%nat) = Some a /\ supp (fams f 0 0)%nat a = false) /\
  (forall t, fleaf_ll l x = Ok t -> forall mode f c r, (f < length (query sc) /\ c < ch /\ r < rep)%nat ->
     t f c r = leaf_score x (fl_leaf l mode) f c r).
Proof. exact fleaf_ll_spec. Qed.
Print Assumptions C87_validation.

Example C87_nonvacuous : common_support (mk_fleaf (mkScope [0; 1]%nat []) 2 1 (fun f c _ => match f with O => FBinomial 4 (INR c) | _ => FUniform 0 1 end)).
Proof. intros f c r _ a. cbn. destruct f; reflexivity. Qed.

(** C86: a missing cell alone can make log_likelihood raise: a Uniform leaf whose
    channels have different supports, a categorical leaf with one category. *)
Theorem C86_missing_raises_refuted :
  fleaf_ll (mk_fleaf (mkScope [0]%nat []) 2 1 (fun _ c _ => if Nat.eqb c 0 then FUniform 0 1 else FUniform 5 6)) (fun _ => None) = Err /\
  fleaf_ll (mk_fleaf (mkScope [0]%nat []) 1 1 (fun _ _ _ => FCategorical 1 (fun _ => 0))) (fun _ => None) = Err.
Proof.
  split; unfold fleaf_ll.
  - rewrite (proj2 (validates_false _ _)); [reflexivity|]. exists 0%nat, 1%nat, 0%nat. split; [unfold entries; cbn; lia|].
    cbn. unfold rle. destruct (Rle_dec 5 0); [lra|reflexivity].
  - rewrite (proj2 (validates_false _ _)); [reflexivity|]. exists 0%nat, 0%nat, 0%nat. split; [unfold entries; cbn; lia|].
    cbn. now rewrite asnat_1.
Qed.
Print Assumptions C86_missing_raises_refuted.
