(** Properties C09-C12: sampling from circuits built from leaves, Sum, Product, Cat. *)
From Coq Require Import List Arith Bool Lia Lra.
From Verif Require Import Base ScopeModel CircuitModel CircuitSpec CircuitEval Integral CircuitMarg CircuitProps CircuitExamples SampleModel SampleSpec SampleExp SampleProofs SampleTop SampleApi SampleKeep SampleExamples.
Import ListNotations.
Local Open Scope R_scope.

(** C09.  Finite domains [dom v]; [vs] enumerates the scope; [x] is a row of W
    columns with the scope missing; [y] a complete assignment.  The expectation of
    the indicator of [y] (the probability that sample(data=x) returns [y]) is
    exp(log_likelihood(y)).  [expects] includes that no exception is raised. *)
Theorem C09_sample_follows_density : forall (dom : nat -> list R) W m s,
  (forall v, NoDup (dom v)) -> built m -> aligned m -> ll_shape m = Ok s -> (0 < repetitions s)%nat ->
  (forall v, vars m v -> (v < W)%nat) ->
  forall x vs y, (forall v, vars m v -> x v = None) -> NoDup vs -> (forall v, In v vs <-> vars m v) ->
  (forall v, In v vs -> exists b, y v = Some b /\ In b (dom v)) -> (forall v, ~ In v vs -> y v = x v) ->
  expects (fun v => DFin (dom v)) (sample false W m x) (tests (point y) vs) (joint m y).
Proof. exact c09_fin. Qed.
Print Assumptions C09_sample_follows_density.

(** sample(num_samples=n), for a scope {0, .., |scope|-1} *)
Theorem C09_sample_new_follows_density : forall (dom : nat -> list R) m s,
  (forall v, NoDup (dom v)) -> built m -> aligned m -> ll_shape m = Ok s -> (0 < repetitions s)%nat ->
  (forall v, vars m v -> (v < length (query (scope_of m)))%nat) ->
  forall vs y, NoDup vs -> (forall v, In v vs <-> vars m v) ->
  (forall v, In v vs -> exists b, y v = Some b /\ In b (dom v)) -> (forall v, ~ In v vs -> y v = None) ->
  expects (fun v => DFin (dom v)) (sample_new false m) (tests (point y) vs) (joint m y).
Proof. exact c09_new. Qed.
Print Assumptions C09_sample_new_follows_density.

(** any domains (finite, countable, real): expectations of all product test
    functions [h] that are integrable at the leaves are those of the density *)
Theorem C09_sample_expectations : forall D W m s (h : nat -> R -> R) (I : leaf -> nat -> nat -> nat -> R),
  (forall v a, 0 <= h v a) -> built m -> aligned m -> ll_shape m = Ok s -> (0 < repetitions s)%nat ->
  (forall v, vars m v -> (v < W)%nat) ->
  (forall l f c r, In l (leaves_of m) -> leaf_range l f c r ->
     sums (D (colv l f)) (fun a => pr (l_lp l f c r a) * h (colv l f) a) (I l f c r)) ->
  forall x vs, (forall v, vars m v -> x v = None) -> NoDup vs -> (forall v, In v vs <-> vars m v) ->
  exists u, expects D (sample false W m x) (tests h vs) u /\
    sums_over D vs (fun y => joint m y * tests h vs y) x u.
Proof. exact c09. Qed.
Print Assumptions C09_sample_expectations.

Example C09_nonvacuous : exists y, expects (fun _ => bits) (sample false 3 exS (fun _ => None)) (tests (point y) [0; 2]%nat) (joint exS y)
  /\ joint exS y = 1/8.
Proof.
  exists y1. split; [|apply exS_y1].
  eapply (C09_sample_follows_density (fun _ => [0; 1])); [|apply exS_built|apply exS_aligned|apply exS_shape|cbn; lia|..].
  - intros _. repeat constructor; cbn; intuition lra.
  - cbn. intros v [<-|[<-|[]]]; lia.
  - reflexivity.
  - repeat constructor; cbn; intuition lia.
  - intros v. reflexivity.
  - intros v [<-|[<-|[]]]; exists 1; cbn; auto.
  - intros v Hv. unfold y1. destruct (Nat.eqb_spec v 0) as [->|]; [exfalso; apply Hv; now left|].
    destruct (Nat.eqb_spec v 2) as [->|]; [exfalso; apply Hv; right; now left|reflexivity].
Qed.

(** C59: sample(num_samples=n) allocates |scope| columns and fails for scopes with gaps *)
Theorem C59_sample_new_refuted : exists m, built m /\ aligned m /\ ll_shape m = Ok (mkShape 1 1 1) /\
  forall mpe y, ~ outcome (sample_new mpe m) y.
Proof. exists gap. split; [exact gap_built|]. split; [|split; [reflexivity|exact gap_raises]]. cbn. intuition discriminate. Qed.
Print Assumptions C59_sample_new_refuted.

(** C10.  [vs]: the missing scope cells of the evidence [e]; [y] completes [e]. *)
Theorem C10_conditional_sampling : forall (dom : nat -> list R) W m s,
  (forall v, NoDup (dom v)) -> built m -> aligned m -> ll_shape m = Ok s -> (0 < repetitions s)%nat ->
  (forall v, vars m v -> (v < W)%nat) ->
  forall e vs y, sums_positive m e -> joint m e <> 0 -> missing e (query (scope_of m)) vs ->
  (forall v, In v vs -> exists b, y v = Some b /\ In b (dom v)) -> (forall v, ~ In v vs -> y v = e v) ->
  expects (fun v => DFin (dom v)) (sample_with_evidence false W m e) (tests (point y) vs) (joint m y / joint m e).
Proof. exact c10_fin. Qed.
Print Assumptions C10_conditional_sampling.

Theorem C10_conditional_expectations : forall D W m s (h : nat -> R -> R) (I : leaf -> nat -> nat -> nat -> R),
  (forall v a, 0 <= h v a) -> built m -> aligned m -> ll_shape m = Ok s -> (0 < repetitions s)%nat ->
  (forall v, vars m v -> (v < W)%nat) ->
  (forall l f c r, In l (leaves_of m) -> leaf_range l f c r ->
     sums (D (colv l f)) (fun a => pr (l_lp l f c r a) * h (colv l f) a) (I l f c r)) ->
  forall e vs, sums_positive m e -> joint m e <> 0 -> missing e (query (scope_of m)) vs ->
  exists u, expects D (sample_with_evidence false W m e) (tests h vs) u /\
    sums_over D vs (fun y => joint m y * tests h vs y) e (u * joint m e).
Proof. exact c10. Qed.
Print Assumptions C10_conditional_expectations.

Lemma exS_sums_positive : sums_positive exS e1.
Proof.
  intros n f c Hn Hs Hf Hc. inversion Hn; subst.
  - cbn in Hf, Hc. assert (f = 0%nat) as -> by lia. assert (c = 0%nat) as -> by lia.
    rewrite <- joint_one by reflexivity. rewrite exS_e1. lra.
  - match goal with H : node_of _ (MProduct _) |- _ => inversion H; subst; [contradiction|] end.
    match goal with H : node_of _ exA |- _ => inversion H; subst; contradiction end.
Qed.

Example C10_nonvacuous :
  expects (fun _ => bits) (sample_with_evidence false 3 exS e1) (tests (point y1) [2]%nat) (2/7).
Proof.
  replace (2/7) with (joint exS y1 / joint exS e1) by (rewrite exS_y1, exS_e1; lra).
  eapply (C10_conditional_sampling (fun _ => [0; 1])); [|apply exS_built|apply exS_aligned|apply exS_shape|cbn; lia|..].
  - intros _. repeat constructor; cbn; intuition lra.
  - cbn. intros v [<-|[<-|[]]]; lia.
  - exact exS_sums_positive.
  - rewrite exS_e1. lra.
  - split; [repeat constructor; cbn; intuition lia|]. intros v. cbn. split.
    + intros [<-|[]]. split; [auto|reflexivity].
    + intros [[<-|[<-|[]]] H]; [discriminate|auto].
  - intros v [<-|[]]. exists 1. cbn. auto.
  - intros v Hv. unfold y1, e1. destruct (Nat.eqb_spec v 0) as [->|]; [reflexivity|].
    destruct (Nat.eqb_spec v 2) as [->|]; [exfalso; apply Hv; now left|reflexivity].
Qed.

(** C60: with evidence of positive probability under the circuit but zero
    probability under one (unselected) Sum input, sample_with_evidence always
    raises *)
Theorem C60_conditional_raises_refuted : exists m e, built m /\ aligned m /\ ll_shape m = Ok (mkShape 1 1 1) /\
  (forall v, vars m v -> (v < 1)%nat) /\ joint m e = 1/4 /\ forall y, ~ outcome (sample_with_evidence false 1 m e) y.
Proof.
  exists br, one_row. split; [exact br_built|]. split; [cbn; repeat split; intros; repeat constructor|].
  split; [reflexivity|]. split; [cbn; intros v [<-|[]]; lia|]. exact (conj br_prob br_raises).
Qed.
Print Assumptions C60_conditional_raises_refuted.

(** C61: sample(data=e) does not condition on the evidence in [data] *)
Theorem C61_data_evidence_refuted : exists m e y u,
  built m /\ aligned m /\ ll_shape m = Ok (mkShape 1 1 1) /\ joint m e <> 0 /\ missing e (query (scope_of m)) [2]%nat /\
  expects (fun _ => bits) (sample false 3 m e) (tests (point y) [2]%nat) u /\ u <> joint m y / joint m e.
Proof.
  exists exS, e1, y1, (5/16). split; [exact exS_built|]. split; [exact exS_aligned|]. split; [reflexivity|].
  rewrite exS_e1, exS_y1. split; [lra|]. split; [|split; [exact exS_ignores|lra]].
  split; [repeat constructor; cbn; intuition lia|]. intros v. cbn. split.
  - intros [<-|[]]. split; [auto|reflexivity].
  - intros [[<-|[<-|[]]] H]; [discriminate|auto].
Qed.
Print Assumptions C61_data_evidence_refuted.

(** C11.  Every possible result of sample, mpe and sample_with_evidence. *)
Theorem C11_sample_keeps : forall mpe W m x y, built m -> outcome (sample mpe W m x) y ->
  (forall v, x v <> None -> y v = x v) /\
  ((forall v, vars m v -> (v < W)%nat) -> (forall v, ~ vars m v -> y v = x v) /\
     (aligned m -> forall v, vars m v -> y v <> None)).
Proof. intros mpe W m x y. exact (c11 mpe W None m x y). Qed.
Print Assumptions C11_sample_keeps.

Theorem C11_evidence_keeps : forall mpe W m e y, built m -> outcome (sample_with_evidence mpe W m e) y ->
  (forall v, e v <> None -> y v = e v) /\ (forall v, ~ vars m v -> y v = e v) /\
  (aligned m -> forall v, vars m v -> y v <> None).
Proof.
  intros mpe W m e y B H. unfold sample_with_evidence in H. destruct (ll_shape m); [|now apply no_outcome_raise in H].
  destruct (forallb _ _) eqn:EW; [|now apply no_outcome_raise in H].
  destruct (c11 mpe W (Some e) m e y B H) as [H1 H2]. split; [exact H1|]. apply H2.
  intros v Hv. apply Nat.ltb_lt. rewrite forallb_forall in EW. now apply EW.
Qed.
Print Assumptions C11_evidence_keeps.

Example C11_nonvacuous : outcome (sample true 3 gr (fun v => if Nat.eqb v 2 then Some 7 else None)) 
  (upd (fun v => if Nat.eqb v 2 then Some 7 else None) 0%nat (Some 0)).
Proof.
  unfold sample, gr. cbn [sample_m]. change (features (out_shape grL)) with 1%nat.
  change (validate [1; 1]%nat 1 1 init_ctx) with true. cbv iota.
  change (broadcast 1 init_ctx) with (Ok init_ctx). cbv iota beta. cbn [init_ctx c_ci c_mask c_rep choose_channels].
  unfold sum_pick at 1. change (Nat.ltb 0 1 && Nat.ltb 0 1)%bool with true. cbv iota. change (channels (out_shape grL)) with 2%nat. unfold sample_logits.
  assert (argmax 2 (fun i => Fin (ln (wv gr_w 0 i 0 0))) = 0%nat) as ->.
  { cbn [argmax Nat.eqb llt wv gr_w]. destruct (Rlt_dec (ln (3/5)) (ln (2/5))) as [H|H]; [|reflexivity]. exfalso.
    apply ln_lt_inv in H; lra. }
  cbn [pbind]. unfold grL. cbn [sample_m]. unfold sample_leaf, scope_cols. cbn [l_scope bern query forallb].
  change (Nat.ltb 0 3) with true. cbn.
  destruct (Rle_dec (2/5) (1/2)); [apply o_ret|lra].
Qed.

(** C62: without feature alignment cells of the scope can stay NaN *)
Theorem C62_unfilled_refuted : exists m x y, built m /\ outcome (sample false 2 m x) y /\ vars m 1 /\ y 1%nat = None.
Proof.
  destruct unP_unfilled as (y & H & E). exists unP, (fun _ => None), y. split; [exact unP_built|]. split; [exact H|].
  split; [cbn; auto|exact E].
Qed.
Print Assumptions C62_unfilled_refuted.

(** C12: mpe picks the most probable component first and then its mode *)
Theorem C12_mpe_refuted : exists m y z, built m /\ aligned m /\ ll_shape m = Ok (mkShape 1 1 1) /\ query (scope_of m) = [0]%nat /\
  sample true 1 m (fun _ => None) = Ret y /\ prob m z 0 0 0 = 3/5 /\ prob m y 0 0 0 = 2/5.
Proof.
  exists gr, (at0 0), (at0 1). split; [exact gr_built|]. split; [exact I|]. split; [reflexivity|]. split; [reflexivity|]. split; [exact (gr_mpe 1 (le_n 1))|split].
  - rewrite gr_prob by auto. destruct (Req_EM_T 1 1); [reflexivity|lra].
  - rewrite gr_prob by auto. destruct (Req_EM_T 0 1); [lra|reflexivity].
Qed.
Print Assumptions C12_mpe_refuted.
