(** Properties C01-C08: circuits built from leaves, Sum, Product, Cat. *)
From Coq Require Import List Arith Bool Lia Lra.
From Verif Require Import Base ScopeModel CircuitModel CircuitSpec CircuitEval Integral CircuitMarg MargModel CircuitProps CircuitExamples.
Import ListNotations.
Local Open Scope R_scope.

(** C01.  [prob m y f c r] is exp(log_likelihood(y))[f,c,r]; [nth f (fts m) []] is
    feature_to_scope[f]; [D v] is the domain of variable v. *)
Theorem C01_normalised : forall D m s f c r,
  built m -> aligned m -> leaves_norm D m -> ll_shape m = Ok s -> in_shape s f c r ->
  forall vs x, NoDup vs -> (forall v, In v vs <-> In v (nth f (fts m) [])) ->
  sums_over D vs (fun y => prob m y f c r) x 1.
Proof. exact c01. Qed.
Print Assumptions C01_normalised.

Theorem C01_normalised_scope : forall D m s c r,
  built m -> aligned m -> leaves_norm D m -> ll_shape m = Ok s ->
  features (out_shape m) = 1%nat -> in_shape s 0 c r ->
  forall x, sums_over D (query (scope_of m)) (fun y => prob m y 0 c r) x 1.
Proof. exact c01_scope. Qed.
Print Assumptions C01_normalised_scope.

Example C01_nonvacuous : exists s, built exS /\ aligned exS /\ leaves_norm (fun _ => bits) exS /\
  ll_shape exS = Ok s /\ features (out_shape exS) = 1%nat /\ in_shape s 0 0 0 /\ query (scope_of exS) = [0; 2]%nat.
Proof.
  exists (mkShape 1 1 1). repeat split; try (cbn; lia); [apply exS_built|apply exS_norm].
Qed.

(** The order in which the inputs of a channel-wise Cat (and hence of a Sum over
    a list of modules) enumerate the variables is not checked, and the circuit is
    then not a distribution. *)
Theorem C56_order_refuted : exists m,
  built m /\ leaves_norm (fun _ => bits) m /\ features (out_shape m) = 1%nat /\ ll_shape m = Ok (mkShape 1 1 1) /\
  prob m (row2 0 0) 0 0 0 + prob m (row2 0 1) 0 0 0 + prob m (row2 1 0) 0 0 0 + prob m (row2 1 1) 0 0 0 = 1/2.
Proof. exists unP. exact (conj unP_built (conj unP_norm (conj eq_refl (conj eq_refl unP_total)))). Qed.
Print Assumptions C56_order_refuted.

(** C02 *)
Theorem C02_nan_marginal : forall D m s f c r,
  built m -> aligned m -> leaves_norm D m -> ll_shape m = Ok s -> in_shape s f c r ->
  forall vs x, NoDup vs -> incl vs (nth f (fts m) []) ->
  sums_over D vs (fun y => prob m y f c r) x (prob m (set_nan vs x) f c r).
Proof. exact c02. Qed.
Print Assumptions C02_nan_marginal.

(** C03 *)
Theorem C03_all_missing : forall m s f c r x, built m -> ll_shape m = Ok s -> in_shape s f c r ->
  (forall v, vars m v -> x v = None) -> loglik m x f c r = Fin 0.
Proof. exact c03. Qed.
Print Assumptions C03_all_missing.

(** C04 *)
Theorem C04_scope_only : forall m s f c r x y, built m -> ll_shape m = Ok s -> in_shape s f c r ->
  (forall v, vars m v -> x v = y v) -> loglik m x f c r = loglik m y f c r.
Proof. exact c04. Qed.
Print Assumptions C04_scope_only.

Theorem C04_feature_only : forall m s f c r x y, built m -> aligned m -> ll_shape m = Ok s -> in_shape s f c r ->
  (forall v, In v (nth f (fts m) []) -> x v = y v) -> loglik m x f c r = loglik m y f c r.
Proof. exact c04_feature. Qed.
Print Assumptions C04_feature_only.

(** C05.  [kidx S (fts m)] lists the output features with a surviving variable. *)
Theorem C05_marginalize : forall S prune m s,
  built m -> aligned m -> reps_ok m -> no_evidence m -> ll_shape m = Ok s ->
  exists o, marg S prune m = Ok o /\
    (o = None <-> (forall v, vars m v -> In v S)) /\
    (forall m', o = Some m' ->
       (forall v, vars m' v <-> vars m v /\ ~ In v S) /\
       exists s', ll_shape m' = Ok s' /\ channels s' = channels s /\ repetitions s' = repetitions s /\
         features s' = length (kidx S (fts m)) /\
         forall j c r x, in_shape s' j c r ->
           loglik m' x j c r = loglik m (set_nan S x) (nth j (kidx S (fts m)) 0%nat) c r).
Proof. exact c05. Qed.
Print Assumptions C05_marginalize.

Theorem C05_marginalize_single : forall S prune m s,
  built m -> aligned m -> reps_ok m -> no_evidence m -> ll_shape m = Ok s ->
  features (out_shape m) = 1%nat -> ~ (forall v, vars m v -> In v S) ->
  exists m' s', marg S prune m = Ok (Some m') /\ (forall v, vars m' v <-> vars m v /\ ~ In v S) /\
    ll_shape m' = Ok s' /\ s' = s /\
    forall c r x, in_shape s 0 c r -> loglik m' x 0 c r = loglik m (set_nan S x) 0 c r.
Proof. exact c05_single. Qed.
Print Assumptions C05_marginalize_single.

Example C05_nonvacuous : built exS /\ aligned exS /\ reps_ok exS /\ no_evidence exS /\
  (exists m', marg [2]%nat true exS = Ok (Some m') /\ forall v, vars m' v <-> v = 0%nat).
Proof.
  split; [apply exS_built|]. split; [exact I|]. split; [cbn; lia|]. split; [reflexivity|].
  destruct (c05_single [2]%nat true exS _ exS_built I ltac:(cbn; lia) eq_refl eq_refl eq_refl) as (m' & s' & E & HV & _).
  - intros H. specialize (H 0%nat (or_introl eq_refl)). cbn in H. intuition lia.
  - exists m'. split; [exact E|]. intros v. rewrite HV. unfold vars. cbn. intuition lia.
Qed.

(** A Sum with more repetitions than its input cannot be marginalised. *)
Theorem C57_marginalize_reps_refuted : exists m s S,
  built m /\ aligned m /\ no_evidence m /\ ll_shape m = Ok s /\ marg S true m = Err.
Proof. exists sum_rep2, (mkShape 2 1 2), [0%nat]. exact (conj sum_rep2_built (conj I (conj eq_refl (conj eq_refl sum_rep2_marg)))). Qed.
Print Assumptions C57_marginalize_reps_refuted.

(** C06.  [sum_weights c co rr lg] is what reading [weights] returns. *)
Theorem C06_weights_convex : forall c co rr lg, built (MSum c co rr lg) -> forall f o r,
  (forall i, (i < channels (out_shape c))%nat -> 0 < wv (sum_weights c co rr lg) f i o r) /\
  bsum (channels (out_shape c)) (fun i => wv (sum_weights c co rr lg) f i o r) = 1.
Proof. exact c06_convex. Qed.
Print Assumptions C06_weights_convex.

Theorem C06_assign_read : forall c co rr w m, built c -> set_weights c co rr w = Ok m ->
  exists lg, m = MSum c co rr lg /\
  forall f i o r, (f < wF w)%nat -> (i < wI w)%nat -> (o < wO w)%nat -> (r < wR w)%nat ->
    wv (sum_weights c co rr lg) f i o r = wv w f i o r / bsum (wI w) (fun j => wv w f j o r).
Proof. exact c06_assign. Qed.
Print Assumptions C06_assign_read.

Theorem C06_accepts_exactly : forall c co rr w,
  (exists m, set_weights c co rr w = Ok m) <->
  wF w = features (out_shape c) /\ wI w = channels (out_shape c) /\ wO w = co /\ wR w = rr /\
  (forall f i o r, (f < wF w)%nat -> (i < wI w)%nat -> (o < wO w)%nat -> (r < wR w)%nat -> 0 < wv w f i o r) /\
  (forall f o r, (f < wF w)%nat -> (o < wO w)%nat -> (r < wR w)%nat ->
     Rabs (bsum (wI w) (fun i => wv w f i o r) - 1) <= / 10 ^ 8 + / 10 ^ 5).
Proof. exact c06_reject. Qed.
Print Assumptions C06_accepts_exactly.

Example C06_nonvacuous : built exS /\ exists m, set_weights (MProduct exA) 1 1 ex_w = Ok m.
Proof.
  split; [apply exS_built|]. eexists. apply (MargProofs.set_weights_intro (MProduct exA) ex_w); cbn; try lia.
  - intros f i o r _ Hi _ _. destruct (Nat.eqb i 0); lra.
  - intros. lra.
Qed.

(** C07 *)
Theorem C07_smooth_decomposable : forall m n, built m -> node_of n m -> node_good n.
Proof. exact c07. Qed.
Print Assumptions C07_smooth_decomposable.

Theorem C07_cat_accepts_exactly : forall (d2 : bool) cs, Forall built cs ->
  ((exists m, mk_cat d2 cs = Ok m) <->
   cs <> [] /\
   (if d2 then (forall c c', In c cs -> In c' cs -> features (out_shape c) = features (out_shape c') /\
                  scope_eqb (scope_of c) (scope_of c') = true)
    else (forall c c', In c cs -> In c' cs -> channels (out_shape c) = channels (out_shape c')) /\ disjoint_inputs cs)).
Proof. exact mk_cat_iff. Qed.
Print Assumptions C07_cat_accepts_exactly.

(** C08 *)
Theorem C08_shape : forall m R, built m -> uniform R m -> ll_shape m = Ok (out_shape m).
Proof. exact c08. Qed.
Print Assumptions C08_shape.

Example C08_nonvacuous : built exS /\ uniform 1 exS.
Proof. split; [apply exS_built|]. cbn. auto. Qed.

Theorem C58_shape_refuted : exists m s, built m /\ ll_shape m = Ok s /\
  repetitions s = 5%nat /\ repetitions (out_shape m) = 1%nat.
Proof. exists sum_rep5, (mkShape 1 1 5). exact (conj sum_rep5_built (conj eq_refl (conj eq_refl eq_refl))). Qed.
Print Assumptions C58_shape_refuted.
