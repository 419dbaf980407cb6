(** C231-C238: the scikit-learn wrappers. *)
From Coq Require Import List Arith ZArith Bool Lia Lra.
From Verif Require Import Base ScopeModel ScopeProofs LearnTop CircuitModel CircuitSpec CircuitBasics CircuitEval CircuitMarg ExpUnique Integral CircuitProps CircuitExamples CmsModel CmsProofs SocsTop PosteriorModel PosteriorProofs SkModel SkSpec SkProofs.
Import ListNotations.
Local Open Scope R_scope.

(** C231: the score of a row is the logarithm of the weighted sum over channels and
    repetitions (means, sums or first entries) of the product of the model's
    probabilities over its features *)
Theorem C231_scores : forall m s ca ra xs ls, ll_shape m = Ok s -> (0 < channels s)%nat -> (0 < repetitions s)%nat ->
  score_samples m ca ra xs = Ok ls -> length ls = length xs /\
  forall i x l, nth_error xs i = Some x -> nth_error ls i = Some l -> pr l = mixture m s ca ra x.
Proof.
  intros m s ca ra xs ls HS HC HR H. unfold score_samples in H. rewrite HS in H. cbn [bind] in H. unfold reduce_log_likelihood in H. cbn [to_shape bind] in H.
  destruct s as [F C R0]. cbn [features channels repetitions] in *. set (s := mkShape F C R0) in *.
  revert ls H. induction xs as [|x xs IH]; intros ls H; cbn [map mapr] in H; [injection H as <-; split; [reflexivity|]; intros [|i] ? ? E; discriminate E|].
  destruct (reduce_row s ca ra (loglik m x)) as [v|] eqn:ER; cbn [bind] in H; [|discriminate H].
  match type of H with bind ?q _ = _ => destruct q as [vs|] eqn:EM; cbn [bind] in H; [|discriminate H] end. injection H as <-.
  destruct (IH vs eq_refl) as [L P]. split; [cbn [length]; congruence|]. intros [|i] x' l Ex El; [|eapply P; eassumption].
  injection Ex as <-. injection El as <-.
  assert (V : valid ca (channels s) /\ valid ra (repetitions s)).
  { unfold valid. destruct (Nat.eq_dec (channels s) 1) as [E1|E1], (Nat.eq_dec (repetitions s) 1) as [E2|E2].
    - split; now left.
    - split; [now left|]. right. intros ->. rewrite reduce_row_err in ER; [discriminate ER|]. unfold valid. intros [_ [K|K]]; congruence.
    - split; [|now left]. right. intros ->. rewrite reduce_row_err in ER; [discriminate ER|]. unfold valid. intros [[K|K] _]; congruence.
    - split; right; intros ->; (rewrite reduce_row_err in ER; [discriminate ER|]); unfold valid; [intros [[K|K] _]|intros [_ [K|K]]]; congruence. }
  destruct V as [VC VR]. destruct (reduce_row_ok s ca ra (loglik m x) HC HR VC VR) as (v' & E & P'). rewrite E in ER. injection ER as <-. exact P'.
Qed.

(** C232: scoring succeeds exactly if the model's own shapes fit and every aggregation
    that has something to aggregate is known (an unknown one is noticed only then) *)
Theorem C232_accepted : forall m ca ra xs s, ll_shape m = Ok s -> (0 < channels s)%nat -> (0 < repetitions s)%nat ->
  ((exists ls, score_samples m ca ra xs = Ok ls) <->
   xs = [] \/ ((channels s = 1%nat \/ ca <> Unknown) /\ (repetitions s = 1%nat \/ ra <> Unknown))).
Proof.
  intros m ca ra xs s HS HC HR. unfold score_samples. rewrite HS. cbn [bind]. unfold reduce_log_likelihood. cbn [to_shape bind].
  destruct s as [F C R0]. cbn [features channels repetitions] in *. set (s := mkShape F C R0) in *. split.
  - intros (ls & H). destruct xs as [|x xs]; [now left|]. right. cbn [map mapr] in H.
    destruct (Nat.eq_dec C 1) as [E1|E1], (Nat.eq_dec R0 1) as [E2|E2]; cbn [channels repetitions].
    + split; now left.
    + split; [now left|]. right. intros ->. rewrite reduce_row_err in H; [discriminate H|]. unfold valid. cbn. intros [_ [K|K]]; congruence.
    + split; [|now left]. right. intros ->. rewrite reduce_row_err in H; [discriminate H|]. unfold valid. cbn. intros [[K|K] _]; congruence.
    + split; right; intros ->; (rewrite reduce_row_err in H; [discriminate H|]); unfold valid; cbn; [intros [[K|K] _]|intros [_ [K|K]]]; congruence.
  - intros [->|[VC VR]]; [exists []; reflexivity|]. 
    assert (G : forall x, exists v, reduce_row s ca ra (loglik m x) = Ok v) by (intros x; destruct (reduce_row_ok s ca ra (loglik m x) HC HR VC VR) as (v & E & _); eauto).
    induction xs as [|x xs (ls & IH)]; [exists []; reflexivity|]. destruct (G x) as (v & E). exists (v :: ls). cbn [map mapr]. rewrite E. cbn [bind]. now rewrite IH.
Qed.

(** the total over all rows *)
Lemma mixture_total D m s ca ra : built m -> aligned m -> leaves_norm D m -> ll_shape m = Ok s ->
  (0 < channels s)%nat -> (0 < repetitions s)%nat -> valid ca (channels s) -> valid ra (repetitions s) ->
  forall x, sums_over D (query (scope_of m)) (mixture m s ca ra) x (atotal ca (channels s) * atotal ra (repetitions s)).
Proof.
  intros HB HA HN HS HC HR VC VR x.
  assert (BP : built (MProduct m)) by (apply (b_product [m]); [constructor; [exact HB|constructor]|reflexivity]).
  assert (SP : ll_shape (MProduct m) = Ok (mkShape 1 (channels s) (repetitions s))) by (cbn [ll_shape]; rewrite HS; reflexivity).
  assert (SO : features s = features (out_shape m)).
  { exact (proj1 (ll_shape_spec m s (built_wf m HB) HS)). }
  assert (ONE : forall c r, (c < channels s)%nat -> (r < repetitions s)%nat ->
    sums_over D (query (scope_of m)) (fun y => bprod (features s) (fun f => prob m y f c r)) x 1).
  { intros c r Hc Hr. pose proof (c01_scope D (MProduct m) _ c r BP HA HN SP eq_refl ltac:(repeat split; cbn; lia) x) as P.
    assert (E : (fun y : row => prob (MProduct m) y 0 c r) = (fun y => bprod (features s) (fun f => prob m y f c r))).
    { apply functional_extensionality. intros y. unfold prob, loglik. cbn [evalm]. rewrite pr_ladds. now rewrite SO. }
    rewrite E in P. exact P. }
  unfold mixture.
  assert (T : atotal ca (channels s) * atotal ra (repetitions s) = bsum (channels s) (fun c => aweight ca (channels s) c * bsum (repetitions s) (fun r => aweight ra (repetitions s) r * 1))).
  { rewrite (bsum_ext (repetitions s) (fun r => aweight ra (repetitions s) r * 1) (aweight ra (repetitions s))) by (intros; ring).
    rewrite (atotal_weights ra) by assumption. rewrite (bsum_ext (channels s) (fun c => aweight ca (channels s) c * atotal ra (repetitions s)) (fun c => atotal ra (repetitions s) * aweight ca (channels s) c)) by (intros; ring).
    rewrite bsum_scal_l, (atotal_weights ca) by assumption. ring. }
  rewrite T. apply (sums_over_bsum D _ (channels s) (fun c y => aweight ca (channels s) c * bsum (repetitions s) (fun r => aweight ra (repetitions s) r * bprod (features s) (fun f => prob m y f c r)))
                      (fun c => aweight ca (channels s) c * bsum (repetitions s) (fun r => aweight ra (repetitions s) r * 1))); [exact HC|].
  intros c Hc. apply (sums_over_scal D _ _ (fun y => bsum (repetitions s) (fun r => aweight ra (repetitions s) r * bprod (features s) (fun f => prob m y f c r)))).
  apply (sums_over_bsum D _ (repetitions s) (fun r y => aweight ra (repetitions s) r * bprod (features s) (fun f => prob m y f c r)) (fun r => aweight ra (repetitions s) r * 1)); [exact HR|].
  intros r Hr. apply (sums_over_scal D _ _ (fun y => bprod (features s) (fun f => prob m y f c r))). now apply ONE.
Qed.

(** the density behind score_samples of one row *)
Definition density (m : module) (ca ra : agg) (x : row) : R := match score_samples m ca ra [x] with Ok [l] => pr l | _ => 0 end.
Lemma density_mixture m s ca ra x : ll_shape m = Ok s -> (0 < channels s)%nat -> (0 < repetitions s)%nat -> valid ca (channels s) -> valid ra (repetitions s) ->
  density m ca ra x = mixture m s ca ra x.
Proof.
  intros HS HC HR VC VR. destruct (proj2 (C232_accepted m ca ra [x] s HS HC HR) (or_intror (conj VC VR))) as (ls & E).
  destruct (C231_scores m s ca ra [x] ls HS HC HR E) as [L P]. destruct ls as [|l [|l' ls]]; try discriminate L.
  unfold density. rewrite E. now apply (P 0%nat x l).
Qed.

(** C233: with mean or first-entry aggregation the scores are log-densities: their
    exponentials add up (integrate) to one over all rows *)
Theorem C233_normalised : forall D m s ca ra, built m -> aligned m -> leaves_norm D m -> ll_shape m = Ok s ->
  (0 < channels s)%nat -> (0 < repetitions s)%nat -> In ca [LogMeanExp; First] -> In ra [LogMeanExp; First] ->
  forall x, sums_over D (query (scope_of m)) (density m ca ra) x 1.
Proof.
  intros D m s ca ra HB HA HN HS HC HR IC IR x.
  assert (VC : valid ca (channels s)) by (right; destruct IC as [<-|[<-|[]]]; discriminate).
  assert (VR : valid ra (repetitions s)) by (right; destruct IR as [<-|[<-|[]]]; discriminate).
  assert (E : density m ca ra = mixture m s ca ra) by (apply functional_extensionality; intros y; now apply density_mixture).
  rewrite E. pose proof (mixture_total D m s ca ra HB HA HN HS HC HR VC VR x) as T.
  replace (atotal ca (channels s) * atotal ra (repetitions s)) with 1 in T; [exact T|].
  destruct IC as [<-|[<-|[]]], IR as [<-|[<-|[]]]; cbn; ring.
Qed.
(** C234: with "logsumexp" they add up to the number of entries added *)
Theorem C234_logsumexp_total : forall D m s, built m -> aligned m -> leaves_norm D m -> ll_shape m = Ok s ->
  (0 < channels s)%nat -> (0 < repetitions s)%nat ->
  forall x, sums_over D (query (scope_of m)) (density m LogSumExp LogSumExp) x (INR (channels s) * INR (repetitions s)).
Proof.
  intros D m s HB HA HN HS HC HR x.
  assert (V : forall n, valid LogSumExp n) by (intros; right; discriminate).
  assert (E : density m LogSumExp LogSumExp = mixture m s LogSumExp LogSumExp) by (apply functional_extensionality; intros y; now apply density_mixture).
  rewrite E. exact (mixture_total D m s LogSumExp LogSumExp HB HA HN HS HC HR (V _) (V _) x).
Qed.

(** * The estimator *)
Section Est.
  Context {M Data Rng Samples : Type}.
  Variables (learn : Data -> result M) (has_mle : M -> bool) (mle : M -> Data -> M * bool) (width : Data -> nat).
  Variables (draw : M -> nat -> Rng -> result Samples * Rng) (manual_seed : Z -> Rng).

  (** C235: sample() of a fitted estimator leaves the global random state alone, and with
      a seed returns what the model draws right after torch.manual_seed *)
  Theorem C235_sample : forall e m n z g, e_fitted M e = Some m -> (1 <= n)%Z ->
    sample M Rng Samples draw manual_seed e n (Some z) g = (fst (draw m (Z.to_nat n) (manual_seed z)), g).
  Proof. intros e m n z g E Hn. unfold sample. rewrite E. destruct (Z.ltb_spec n 1); [lia|reflexivity]. Qed.
  Theorem C235_rng_kept : forall e n rs g, snd (sample M Rng Samples draw manual_seed e n rs g) = g.
  Proof. intros e n rs g. unfold sample. destruct (e_fitted M e); [|reflexivity]. destruct (Z.ltb n 1); reflexivity. Qed.
  (** C236: so repeating an unseeded call repeats its samples *)
  Theorem C236_unseeded_repeats : forall e n g,
    let '(a, g1) := sample M Rng Samples draw manual_seed e n None g in
    fst (sample M Rng Samples draw manual_seed e n None g1) = a.
  Proof. intros e n g. pose proof (C235_rng_kept e n None g) as K. destruct (sample M Rng Samples draw manual_seed e n None g) as [a g1] eqn:E. cbn in K. subst g1. now rewrite E. Qed.

  (** C237: what fit leaves behind *)
  Theorem C237_fit : forall e X, let '(e', raised) := fit M Data learn has_mle mle width e X in
    e_features M e' = Some (width X) /\
    (raised = false -> exists m, e_fitted M e' = Some m /\
       match e_model M e with
       | None => learn X = Ok m
       | Some m0 => m = (if e_fit_params M e then fst (mle m0 X) else m0)
       end) /\
    (** a given model is trained in place *)
    (forall m0, e_model M e = Some m0 -> e_model M e' = e_fitted M e').
  Proof.
    intros [[m0|] fp ft nf] X; unfold fit; cbn [e_model e_fit_params e_fitted].
    - destruct fp; cbn [negb].
      + destruct (has_mle m0); cbn [negb].
        * destruct (mle m0 X) as [m' rs] eqn:EM. split; [reflexivity|]. split; [|reflexivity]. intros _. exists m'. now split.
        * split; [reflexivity|]. split; [discriminate|reflexivity].
      + split; [reflexivity|]. split; [|reflexivity]. intros _. now exists m0.
    - destruct (learn X) as [m|]; split; try reflexivity; split; try discriminate. intros _. now exists m.
  Qed.
End Est.

(** C234 (refuted): whatever aggregation is chosen, the scores are log-densities *)
Theorem C234_normalised_refuted : ~ (forall D m s ca ra, built m -> aligned m -> leaves_norm D m -> ll_shape m = Ok s ->
  In ca [LogMeanExp; LogSumExp; First] -> In ra [LogMeanExp; LogSumExp; First] ->
  forall x, sums_over D (query (scope_of m)) (density m ca ra) x 1).
Proof.
  intros K. assert (NA : leaves_norm (fun _ => bits) exA) by exact exS_norm.
  pose proof (K (fun _ => bits) exA (mkShape 2 2 1) LogSumExp LogSumExp exA_built I NA eq_refl ltac:(cbn; auto) ltac:(cbn; auto) (fun _ => None)) as K1.
  pose proof (C234_logsumexp_total (fun _ => bits) exA (mkShape 2 2 1) exA_built I NA eq_refl ltac:(cbn; lia) ltac:(cbn; lia) (fun _ => None)) as K2.
  pose proof (sums_over_unique _ _ _ _ _ _ K1 K2) as E. cbn in E. lra.
Qed.

Example C233_ex : forall x, sums_over (fun _ => bits) [0; 2]%nat (density exA LogMeanExp LogMeanExp) x 1.
Proof.
  intros x. refine (C233_normalised (fun _ => bits) exA (mkShape 2 2 1) LogMeanExp LogMeanExp exA_built I _ eq_refl _ _ _ _ x); [exact exS_norm|cbn; lia|cbn; lia|now left|now left].
Qed.
(** the mean over the two channels of the product over the two features *)
Example C231_ex : density exA LogMeanExp First (fun v => if Nat.eqb v 0 then Some 1 else None) = 3 / 8.
Proof.
  rewrite (density_mixture exA (mkShape 2 2 1)); [|reflexivity|cbn; lia|cbn; lia|right; discriminate|now left].
  unfold mixture. cbn [channels repetitions features bsum bprod aweight Nat.eqb].
  unfold prob, loglik. cbn [evalm exA]. unfold leaf_score. cbn [bern l_scope query nth l_lp Nat.eqb]. rewrite !pr_bern_1 by lra. rewrite pr_Fin0. cbn [INR]. lra.
Qed.

(** C236 (refuted): successive unseeded calls draw successively, like calling the model *)
Theorem C236_fresh_samples_refuted : ~ (forall (M Rng Samples : Type) (draw : M -> nat -> Rng -> result Samples * Rng) (manual_seed : Z -> Rng) e m n g,
  e_fitted M e = Some m -> (1 <= n)%Z ->
  let '(a, g1) := sample M Rng Samples draw manual_seed e n None g in
  let '(b, g2) := sample M Rng Samples draw manual_seed e n None g1 in
  let '(a', h1) := draw m (Z.to_nat n) g in let '(b', h2) := draw m (Z.to_nat n) h1 in
  a = a' /\ b = b').
Proof.
  intros K. specialize (K unit nat nat (fun _ _ g => (Ok g, S g)) Z.to_nat (mkEst unit None true (Some tt) None) tt 1%Z 0%nat eq_refl ltac:(lia)).
  cbn in K. destruct K as [_ K]. discriminate K.
Qed.
Example C235_ex : sample unit nat nat (fun _ _ g => (Ok g, S g)) Z.to_nat (mkEst unit None true (Some tt) None) 3 (Some 7%Z) 0%nat = (Ok 7%nat, 0%nat).
Proof. rewrite (C235_sample _ _ _ tt); [reflexivity|reflexivity|lia]. Qed.

(** C238 (refuted): if fit raises, the estimator does not count as fitted by it *)
Theorem C238_failed_fit_refuted : ~ (forall (M Data : Type) learn has_mle mle width e X e',
  fit M Data learn has_mle mle width e X = (e', true) -> e_fitted M e = None -> e_fitted M e' = None).
Proof.
  intros K. specialize (K unit unit (fun _ => Err) (fun _ => false) (fun m _ => (m, false)) (fun _ => 1%nat) (mkEst unit (Some tt) true None None) tt _ eq_refl eq_refl). discriminate K.
Qed.
(** it always counts as fitted if a model was given *)
Theorem C238_given_model : forall (M Data : Type) learn has_mle mle width e X m,
  e_model M e = Some m -> exists m', e_fitted M (fst (fit M Data learn has_mle mle width e X)) = Some m'.
Proof.
  intros M Data learn has_mle mle width e X m E. unfold fit. rewrite E. destruct (e_fit_params M e); cbn [negb]; [|now exists m].
  destruct (has_mle m); cbn [negb]; [|now exists m]. destruct (mle m X) as [m' rs]. now exists m'.
Qed.
Example C237_ex : fit unit unit (fun _ => Ok tt) (fun _ => true) (fun m _ => (m, false)) (fun _ => 4%nat) (mkEst unit None true None None) tt = (mkEst unit None true (Some tt) (Some 4%nat), false).
Proof. reflexivity. Qed.

(** C239: the wrapped classifier predicts the label whose rank among the labels seen in
    fit is the model's class; with the labels 0 .. K-1 that is the model's class itself *)
Lemma mapr_all {A B} (f : A -> result B) l bs : mapr f l = Ok bs <-> Forall2 (fun a b => f a = Ok b) l bs.
Proof.
  revert bs. induction l as [|a l IH]; intros bs; cbn [mapr].
  - split; [intros E; injection E as <-; constructor|intros E; inversion E; reflexivity].
  - split.
    + intros E. destruct (f a) as [b|] eqn:Ea; cbn [bind] in E; [|discriminate E]. destruct (mapr f l) as [bs'|] eqn:El; cbn [bind] in E; [|discriminate E].
      injection E as <-. constructor; [exact Ea|]. now apply IH.
    + intros E. inversion E as [|x y l' l'' E1 E2]; subst. rewrite E1. cbn [bind]. apply IH in E2. now rewrite E2.
Qed.
Theorem C239_predict : forall y K probs ls, sk_predict y K probs = Ok ls <->
  Forall2 (fun p l => nth_error (sortu y) (oargmax K p) = Some l) probs ls.
Proof.
  intros y K probs ls. unfold sk_predict. rewrite mapr_all. unfold classes.
  split; intros H; (induction H as [|p l ps ls E H IH]; constructor; [|exact IH]); destruct (nth_error _ _); congruence.
Qed.
Theorem C239_labels_sorted : forall y, (forall l, In l (classes y) <-> In l y) /\ NoDup (classes y) /\ Sorted.StronglySorted lt (classes y).
Proof. intros y. split; [intros l; apply sortu_In|]. split; [apply sortu_NoDup|apply sortu_sorted]. Qed.
Theorem C239_standard_labels : forall y K (lls : list (nat -> lval)) prior, (0 < K)%nat -> (forall l, In l y <-> (l < K)%nat) ->
  sk_predict y K (map (fun ll => predict_proba K ll prior) lls) = Ok (map (fun ll => predict K ll prior) lls).
Proof.
  intros y K lls prior HK HY. apply C239_predict.
  assert (ES : sortu y = seq 0 K).
  { rewrite (sortu_ext y (seq 0 K)) by (intros v; rewrite HY, in_seq; lia). apply sortu_seq. }
  rewrite ES. induction lls as [|ll lls IH]; [constructor|]. cbn [map]. constructor; [|exact IH]. cbv beta. unfold predict.
  assert (LT : (oargmax K (predict_proba K ll prior) < K)%nat) by (apply oargmax_lt; exact HK).
  rewrite (nth_error_nth' _ 0%nat) by (rewrite seq_length; exact LT). now rewrite seq_nth.
Qed.

(** C240 (refuted): predict returns the model's class for standard labels even if some
    class does not occur in the labels passed to fit: with labels 0 and 2 the model's
    class 1 is reported as 2 *)
Theorem C240_missing_label_refuted : ~ (forall y K probs ls, (forall l, In l y -> (l < K)%nat) -> y <> [] ->
  sk_predict y K probs = Ok ls -> ls = map (oargmax K) probs).
Proof.
  intros H. set (p := fun c => if Nat.eqb c 1 then Some 1 else Some 0).
  assert (A : oargmax 3 p = 1%nat).
  { unfold p. cbn [oargmax Nat.eqb]. destruct (Rlt_dec 0 1); [|lra]. cbn [Nat.eqb]. destruct (Rlt_dec 1 0); [lra|reflexivity]. }
  assert (P : sk_predict [0; 2]%nat 3 [p] = Ok [2%nat]) by (unfold sk_predict; cbn [mapr]; rewrite A; reflexivity).
  pose proof (H [0; 2]%nat 3%nat [p] [2%nat] ltac:(cbn; lia) ltac:(discriminate) P) as E. cbn [map] in E. rewrite A in E. discriminate E.
Qed.
(** and a class whose index is not below the number of labels makes predict raise *)
Theorem C240_raises : forall y K p probs, In p probs -> (length (sortu y) <= oargmax K p)%nat -> sk_predict y K probs = Err.
Proof.
  intros y K p probs Hp HL. unfold sk_predict. apply (mapr_err _ _ p Hp). unfold classes.
  destruct (nth_error (sortu y) (oargmax K p)) eqn:E; [|reflexivity]. assert (N : nth_error (sortu y) (oargmax K p) <> None) by congruence. apply nth_error_Some in N. lia.
Qed.
Example C239_ex : exists ls, sk_predict [1; 0; 1]%nat 2 [predict_proba 2 (fun _ => Fin 0) (fun _ => Fin 0)] = Ok ls.
Proof. eexists. apply (C239_standard_labels [1; 0; 1]%nat 2 [fun _ => Fin 0] (fun _ => Fin 0)); [lia|]. intros l. cbn. lia. Qed.

Print Assumptions C231_scores.
Print Assumptions C232_accepted.
Print Assumptions C233_normalised.
Print Assumptions C234_logsumexp_total.
Print Assumptions C234_normalised_refuted.
Print Assumptions C235_sample.
Print Assumptions C235_rng_kept.
Print Assumptions C236_unseeded_repeats.
Print Assumptions C236_fresh_samples_refuted.
Print Assumptions C237_fit.
Print Assumptions C238_failed_fit_refuted.
Print Assumptions C238_given_model.
Print Assumptions C239_predict.
Print Assumptions C239_labels_sorted.
Print Assumptions C239_standard_labels.
Print Assumptions C240_missing_label_refuted.
Print Assumptions C240_raises.
