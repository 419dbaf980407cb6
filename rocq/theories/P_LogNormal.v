(** C308-C311: the log-normal leaf. *)
From Coq Require Import List Arith Bool Reals Lra Lia.
From Coquelicot Require Import Coquelicot.
From Verif Require Import Base ScopeModel CircuitModel CircuitBasics CircuitEval CircuitMarg Integral LeafModel LeafSpec MleModel
  CircuitProps CircuitExamples MargProofs MleSpec LogNormalModel LogNormalProofs LogNormalMle LogNormalMle2 LogNormalFitModel LogNormalFit.
Import ListNotations.
Local Open Scope R_scope.

(** [l_lp (lnl_leaf l) f c r a] is what log_likelihood scores the value [a] with;
    [pr] of it is the density. *)

(** C308: the density is the textbook one, positive exactly on the positive reals,
    and integrates to one over the reals ... *)
Theorem C308_density : forall l f c r a,
  let m := ln_loc (lnl_par l f c r) in let s := exp (ln_log_scale (lnl_par l f c r)) in
  pr (l_lp (lnl_leaf l) f c r a) =
    if Rlt_dec 0 a then / (a * s * sqrt (2 * PI)) * exp (- (((ln a - m) / s) ^ 2 / 2)) else 0.
Proof.
  intros l f c r a m s. change (dens (lnl_par l f c r) a = if Rlt_dec 0 a then / (a * s * sqrt (2 * PI)) * exp (- (((ln a - m) / s) ^ 2 / 2)) else 0).
  destruct (Rlt_dec 0 a) as [H|H]; [|apply dens_out; lra].
  rewrite dens_normal, LeafNorm.normal_density by assumption. fold m s.
  assert (0 < s) by apply exp_pos. assert (0 < sqrt (2 * PI)) by (apply sqrt_lt_R0; pose proof PI_RGT_0; lra).
  replace (- ((ln a - m) / s) ^ 2 / 2) with (- (((ln a - m) / s) ^ 2 / 2)) by (field; lra). field. repeat split; lra.
Qed.
Print Assumptions C308_density.

Theorem C308_normalised : forall l f c r, sums DReal (fun a => pr (l_lp (lnl_leaf l) f c r a)) 1.
Proof. intros l f c r. exact (ln_norm (lnl_par l f c r)). Qed.
Print Assumptions C308_normalised.

(** ... and a circuit over log-normal leaves is a joint density. *)
Theorem C308_circuit : forall m s c r,
  built m -> aligned m -> (forall l, In l (leaves_of m) -> exists q, l = lnl_leaf q) -> ll_shape m = Ok s ->
  features (out_shape m) = 1%nat -> in_shape s 0 c r ->
  forall x, sums_over (fun _ => DReal) (query (scope_of m)) (fun y => prob m y 0 c r) x 1.
Proof.
  intros m s c r B A L E F S. apply (c01_scope _ m s); auto.
  unfold leaves_norm. rewrite Forall_forall. intros l Hl. destruct (L l Hl) as (q & ->). apply ln_leaf_norm.
Qed.
Print Assumptions C308_circuit.

Definition exLN : lnleaf := mkLNLeaf (mkScope [0; 2]%nat []) 2 1 (fun f c _ => mkLN (INR f) (INR c)).
Definition exLNS : module := MSum (MProduct (MLeaf (lnl_leaf exLN))) 1 1 (fun f i o r => ln (wv ex_w f i o r)).
Example C308_nonvacuous : built exLNS /\ aligned exLNS /\ (forall l, In l (leaves_of exLNS) -> exists q, l = lnl_leaf q) /\
  ll_shape exLNS = Ok (mkShape 1 1 1) /\ features (out_shape exLNS) = 1%nat /\ in_shape (mkShape 1 1 1) 0 0 0.
Proof.
  assert (built (MLeaf (lnl_leaf exLN))) as BL.
  { apply b_leaf. assert (NoDup [0; 2]%nat) as ND by (repeat constructor; cbn; intuition lia).
    assert ([0; 2]%nat <> []) as NE by discriminate. apply leaf_okb_spec. cbn. repeat split; auto; try lia; constructor. }
  assert (built (MProduct (MLeaf (lnl_leaf exLN)))) as BP by (apply (b_product [MLeaf (lnl_leaf exLN)]); [constructor; [exact BL|constructor]|reflexivity]).
  split; [|split; [|split; [|split; [|split]]]].
  - apply (b_sum_w (MProduct (MLeaf (lnl_leaf exLN))) 1 1 (W4 ex_w)); [exact BP|].
    apply (mk_sum_w_intro (MProduct (MLeaf (lnl_leaf exLN))) ex_w); cbn; try lia.
    + intros f i o r _ Hi _ _. destruct (Nat.eqb i 0); lra.
    + intros. lra.
  - cbn. tauto.
  - intros l [<-|[]]. now exists exLN.
  - reflexivity.
  - reflexivity.
  - unfold in_shape. cbn. lia.
Qed.

(** C309: MPE fills a missing cell with the unique maximiser of the density. *)
Theorem C309_mode : forall l f c r a,
  pr (l_lp (lnl_leaf l) f c r a) <= pr (l_lp (lnl_leaf l) f c r (l_mode (lnl_leaf l) f c r)) /\
  (pr (l_lp (lnl_leaf l) f c r a) = pr (l_lp (lnl_leaf l) f c r (l_mode (lnl_leaf l) f c r)) -> a = l_mode (lnl_leaf l) f c r).
Proof. intros l f c r a. exact (mode_best (lnl_par l f c r) a). Qed.
Print Assumptions C309_mode.

Theorem C309_mode_positive : forall l f c r, 0 < l_mode (lnl_leaf l) f c r.
Proof. intros. apply exp_pos. Qed.
Print Assumptions C309_mode_positive.

(** C310: the probability of an interval of positive values is the probability a
    normal with the same parameters gives to the interval of their logarithms. *)
Theorem C310_log_is_normal : forall l f c r a b, 0 < a -> a <= b ->
  let p := lnl_par l f c r in
  exists u, is_RInt (fun x => pr (l_lp (lnl_leaf l) f c r x)) a b u /\
    is_RInt (fun y => pr (fam_lp (FNormal (ln_loc p) (ln_log_scale p)) y)) (ln a) (ln b) u.
Proof. intros l f c r a b Ha Hab p. exact (ln_interval p a b Ha Hab). Qed.
Print Assumptions C310_log_is_normal.

Example C310_nonvacuous : 0 < 1 /\ 1 <= 2. Proof. lra. Qed.

(** C311: one entry's maximum-likelihood estimate (no bias correction), on positive
    values of positive weight, two of them different: it is stored without
    clamping, and no other parameters have a higher weighted log-likelihood. *)
Theorem C311_mle : forall ulp t l, 0 < t -> Forall (fun q => 0 < fst q /\ 0 < snd q) l ->
  (exists a b, a <> b /\ occurs (eq a) l /\ occurs (eq b) l) ->
  exists p, ln_stored (est_lognormal ulp false (XR t) l) = Some p /\
    forall p', lsumR (map (fun q => fst q * ln (pr (ln_lp p' (snd q)))) l) <= lsumR (map (fun q => fst q * ln (pr (ln_lp p (snd q)))) l).
Proof. intros ulp t l Ht F D. destruct (ln_optimal ulp t l Ht F D) as (p & E & O). exists p. split; [exact E|exact O]. Qed.
Print Assumptions C311_mle.

Example C311_nonvacuous : 0 < 2 /\ Forall (fun q => 0 < fst q /\ 0 < snd q) [(1, 1); (1/2, 3)] /\
  exists a b, a <> b /\ occurs (eq a) [(1, 1); (1/2, 3)] /\ occurs (eq b) [(1, 1); (1/2, 3)].
Proof.
  split; [lra|]. split; [repeat constructor; cbn; lra|]. exists 1, 3. split; [lra|].
  split; [exists (1, 1)|exists (1/2, 3)]; cbn; auto.
Qed.

(** C316: with bias correction, for unweighted values of one entry: [loc] is the
    mean of the logarithms and the squared scale their unbiased variance. *)
Theorem C316_bias_corrected : forall ulp vals, (forall a, In a vals -> 0 < a) -> (exists a b, In a vals /\ In b vals /\ a <> b) ->
  exists ls, ln_stored (est_lognormal ulp true (XR 1) (map (fun a => (1, a)) vals)) = Some (mkLN (mean (map ln vals)) ls) /\
    exp ls ^ 2 = unbiased_var (map ln vals).
Proof. exact ln_bias_corrected. Qed.
Print Assumptions C316_bias_corrected.

Example C316_nonvacuous : (forall a, In a [1; 3] -> 0 < a) /\ exists a b, In a [1; 3] /\ In b [1; 3] /\ a <> b.
Proof.
  split; [intros a [<-|[<-|[]]]; lra|]. exists 1, 3. cbn. split; [auto|]. split; [auto|lra].
Qed.

(** C319: maximum_likelihood_estimation of a whole leaf, with rows dropped and weights
    normalised; [samples F f c r d l]: [l] lists the weights and values of the
    complete rows at the entry. *)
Theorem C319_mle_leaf : forall F C P ulp ns d res f c r l,
  ln_mle F C P ulp false ns d = Ok res -> (f < F)%nat -> (c < C)%nat -> (r < P)%nat ->
  weights_nonneg d -> samples F f c r d l -> Forall (fun q => 0 < fst q /\ 0 < snd q) l ->
  (exists a b, a <> b /\ occurs (eq a) l /\ occurs (eq b) l) ->
  exists p, ln_stored (res f c r) = Some p /\
    forall p', lsumR (map (fun q => fst q * ln (pr (ln_lp p' (snd q)))) l) <= lsumR (map (fun q => fst q * ln (pr (ln_lp p (snd q)))) l).
Proof. exact ln_mle_optimal. Qed.
Print Assumptions C319_mle_leaf.

Example C319_nonvacuous : let d := unweighted [fun _ => Some 1; fun _ => None; fun _ => Some 3] in
  (exists res, ln_mle 1 1 1 0 false NsIgnore d = Ok res) /\ weights_nonneg d /\ samples 1 0 0 0 d [(1, 1); (1, 3)].
Proof.
  cbn zeta. split; [eexists; reflexivity|]. split.
  - intros o f c r [<-|[<-|[<-|[]]]]; cbn; lra.
  - apply (samples_keep 1 0 0 0 (mkObs (fun _ => Some 1) (fun _ _ _ => 1)) 1); [intros f _; discriminate|reflexivity|].
    apply samples_drop; [intros K; exact (K 0%nat ltac:(lia) eq_refl)|].
    apply (samples_keep 1 0 0 0 (mkObs (fun _ => Some 3) (fun _ _ _ => 1)) 3); [intros f _; discriminate|reflexivity|constructor].
Qed.

(** C320 (refuted): with bias correction the squared scale is the unbiased variance
    of the logarithms, whatever the number of features: with two features, the
    values 1 and e^2 of each store an infinite scale (the unbiased variance is 2). *)
Definition bias_corrected_leaf : Prop := forall F C P ulp d res f c r vals,
  ln_mle F C P ulp true NsNone (unweighted d) = Ok res -> (f < F)%nat -> (c < C)%nat -> (r < P)%nat ->
  Forall2 (fun x a => x f = Some a) d vals -> (forall a, In a vals -> 0 < a) -> (exists a b, In a vals /\ In b vals /\ a <> b) ->
  exists ls, ln_stored (res f c r) = Some (mkLN (mean (map ln vals)) ls) /\ exp ls ^ 2 = unbiased_var (map ln vals).
Theorem C320_bias_corrected_refuted : ~ bias_corrected_leaf.
Proof.
  intros H. destruct ln_bc_two as (res & E & V).
  destruct (H 2%nat 1%nat 1%nat 0 _ res 0%nat 0%nat 0%nat [exp 0; exp 2] E) as (ls & S & _); try lia.
  - repeat constructor.
  - intros a [<-|[<-|[]]]; apply exp_pos.
  - exists (exp 0), (exp 2). cbn. split; [auto|]. split; [auto|]. intros X. apply exp_inv in X. lra.
  - rewrite V in S. discriminate.
Qed.
Print Assumptions C320_bias_corrected_refuted.

(** C312: with validation on, log_likelihood of a row raises when a cell of the
    scope is zero or negative; otherwise every entry is the density of its cell, and
    one where the cell is missing. *)
Theorem C312_log_likelihood : forall l x, (0 < lnl_ch l)%nat -> (0 < lnl_rep l)%nat ->
  let vars := query (lnl_scope l) in
  ((exists v a, In v vars /\ x v = Some a /\ a <= 0) -> lnl_ll l x = Err) /\
  ((forall v a, In v vars -> x v = Some a -> 0 < a) -> exists t, lnl_ll l x = Ok t /\
     forall f c r, (f < length vars)%nat -> (c < lnl_ch l)%nat -> (r < lnl_rep l)%nat ->
       match x (nth f vars 0%nat) with
       | None => pr (t f c r) = 1
       | Some a => pr (t f c r) = pr (l_lp (lnl_leaf l) f c r a)
       end).
Proof. exact lnl_ll_spec. Qed.
Print Assumptions C312_log_likelihood.

Example C312_nonvacuous :
  (0 < lnl_ch exLN)%nat /\ (0 < lnl_rep exLN)%nat /\
  (exists v a, In v (query (lnl_scope exLN)) /\ (fun v => if Nat.eqb v 2 then Some 0 else None) v = Some a /\ a <= 0) /\
  (forall v a, In v (query (lnl_scope exLN)) -> (fun v => if Nat.eqb v 2 then Some 3 else None) v = Some a -> 0 < a).
Proof.
  split; [cbn; lia|]. split; [cbn; lia|]. split.
  - exists 2%nat, 0. cbn. split; [tauto|]. split; [reflexivity|lra].
  - intros v a _ H. destruct (Nat.eqb v 2); [injection H as <-; lra|discriminate].
Qed.
