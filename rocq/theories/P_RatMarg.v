(** RatSPN.marginalize. *)
From Coq Require Import List Arith Bool Reals Lia Lra Permutation.
From Verif Require Import Base ScopeModel ScopeProofs CircuitModel CircuitEval CircuitBasics SampleModel MargModel EmModel SplitModel LayerModel FactorModel
  StackModel StackSpec StackProofs StackTop StackRat StackRatTop P_Rat RatMargModel RatMargProofs RatMargTop.
Import ListNotations.
Local Open Scope R_scope.

Definition rvars (st : stack) : list nat := query (scope_of (k_leaf st)).
Lemma touches_iff V sc : touches V sc = true <-> exists v, In v (query sc) /\ In v V.
Proof.
  unfold touches. rewrite existsb_exists. split; intros (v & A & B); exists v; split; auto; now apply memb_In.
Qed.
Lemma covers_iff V sc : covers V sc = true <-> forall v, In v (query sc) -> In v V.
Proof.
  unfold covers. rewrite forallb_forall. split; intros A v B; apply memb_In; auto.
Qed.

(** ** C305: part of the variables of a RatSPN can be marginalised out.  False: every
    such request raises, for every architecture. *)
Theorem C305_raises : forall leaves c p d st V, mk_rat leaves c p d = Ok st ->
  (exists v, In v (rvars st) /\ In v V) -> (exists v, In v (rvars st) /\ ~ In v V) -> rat_marg V st = MRaise.
Proof.
  intros leaves c p d st V E T C. apply (marg_raise leaves c p d st V E); [now apply touches_iff|].
  destruct (covers V (scope_of (k_leaf st))) eqn:Q; [|reflexivity]. destruct C as (v & A & B). destruct B. exact (proj1 (covers_iff _ _) Q v A).
Qed.
Print Assumptions C305_raises.

Definition cfg1 (roots reps : nat) : rat_cfg := mkRat roots 2 reps 2 true None 2.
Lemma cfg1_built roots reps : (roots = 1 \/ roots = 2)%nat -> (1 <= reps)%nat ->
  exists st, mk_rat [ex_leaf 4 2 (fun _ _ => 1/2)] (cfg1 roots reps) zero_par (plain_draw 4 2) = Ok st /\ rvars st = [0; 1; 2; 3]%nat /\ features (stack_shape st) = 1%nat.
Proof.
  intros H1 H2.
  destruct (rat_built [ex_leaf 4 2 (fun _ _ => 1/2)] (cfg1 roots reps) zero_par (plain_draw 4 2) Consecutive (ex_leaf 4 2 (fun _ _ => 1/2)) (mkShape 4 2 1))
    as (st & E & L & F & ops & Eo & A); [apply ex_leaves_ok; lia|reflexivity|discriminate|cbn; lia|repeat split; cbn; lia|now left|].
  exists st. split; [exact E|]. split; [unfold rvars; now rewrite L|].
  injection Eo as <-. unfold stack_shape, top_shape. revert A. generalize (k_layers st) as ls.
  change (channels (out_shape (ex_leaf 4 2 (fun _ _ => 1/2)))) with 2%nat. clear - H1.
  destruct H1 as [->| ->]; intros ls A; vm_compute in A; injection A as <-; reflexivity.
Qed.
Theorem C305_rat_marginalize_refuted : ~ (forall leaves c p d st V, mk_rat leaves c p d = Ok st ->
  (exists v, In v (rvars st) /\ ~ In v V) -> rat_marg V st <> MRaise).
Proof.
  intros H. destruct (cfg1_built 2 2 ltac:(lia) ltac:(lia)) as (st & E & Q & _).
  refine (H _ _ _ _ _ [0%nat] E _ (C305_raises _ _ _ _ _ _ E _ _)); rewrite Q;
    first [exists 0%nat; cbn; tauto | exists 1%nat; cbn; split; [tauto|intros [C|[]]; discriminate]].
Qed.
Print Assumptions C305_rat_marginalize_refuted.

(** ** C306: a request that names no variable of the model gives an equivalent model.
    False: with one root node and several repetitions it raises (the weights over the
    repetitions are taken for weights over channels, which must sum to one). *)
Theorem C306_nothing_raises : forall leaves c p d st V, mk_rat leaves c p d = Ok st ->
  rvars st <> [] -> (forall v, In v (rvars st) -> ~ In v V) -> (0 < features (stack_shape st))%nat ->
  ra_root c = 1%nat -> (2 <= ra_reps c)%nat -> rat_marg V st = MRaise.
Proof.
  intros leaves c p d st V E NE NT HF H1 HR. apply (marg_keep_raise leaves c p d st V E NE); auto.
  destruct (touches V (scope_of (k_leaf st))) eqn:T; [|reflexivity]. apply touches_iff in T. destruct T as (v & A & B). destruct (NT v A B).
Qed.
Print Assumptions C306_nothing_raises.
Theorem C306_nothing_refuted : ~ (forall leaves c p d st, mk_rat leaves c p d = Ok st -> rvars st <> [] -> rat_marg [] st <> MRaise).
Proof.
  intros H. destruct (cfg1_built 1 2 ltac:(lia) ltac:(lia)) as (st & E & Q & F).
  assert (NE : rvars st <> []) by (rewrite Q; discriminate).
  refine (H _ _ _ _ _ E NE (C306_nothing_raises _ _ _ _ _ _ E NE _ _ _ _)); [intros v _ []|rewrite F; lia|reflexivity|cbn; lia].
Qed.
Print Assumptions C306_nothing_refuted.

(** ** C307: removing every variable gives None; naming none of them gives, with several
    root nodes or a single repetition, a model with the same shape and likelihoods *)
Theorem C307_whole : forall leaves c p d st V, mk_rat leaves c p d = Ok st ->
  (forall v, In v (rvars st) -> In v V) -> rat_marg V st = MGone.
Proof. intros leaves c p d st V E H. apply (marg_gone leaves c p d st V E). now apply covers_iff. Qed.
Print Assumptions C307_whole.
Theorem C307_nothing : forall leaves c p d st V, mk_rat leaves c p d = Ok st ->
  rvars st <> [] -> (forall v, In v (rvars st) -> ~ In v V) -> (2 <= ra_root c)%nat \/ ra_reps c = 1%nat ->
  exists st', rat_marg_result V st = Some st' /\ stack_shape st' = stack_shape st /\
    forall x t, stack_ll st x = Ok t -> exists t', stack_ll st' x = Ok t' /\ t_sh (n_t t') = t_sh (n_t t) /\
      forall f ch r, in_shape (t_sh (n_t t)) f ch r -> nval t' f ch r = nval t f ch r.
Proof.
  intros leaves c p d st V E NE NT H.
  destruct (marg_keep leaves c p d st V E NE) with (1 := proj1 (Bool.not_true_iff_false _) (fun T => let (v, AB) := proj1 (touches_iff V _) T in NT v (proj1 AB) (proj2 AB)))
    as (st' & R1 & R2 & R3); [exact H|].
  exists st'. split; [exact R1|]. split; [exact R2|]. intros x t L. destruct (R3 x t L) as (t' & L' & S1 & S2). exists t'. split; [exact L'|]. split; [now symmetry|].
  intros f ch r (A & B & C). symmetry. now apply S2.
Qed.
Print Assumptions C307_nothing.
Example C307_ex : forall roots reps, (roots = 1 \/ roots = 2)%nat -> (1 <= reps)%nat ->
  exists st, mk_rat [ex_leaf 4 2 (fun _ _ => 1/2)] (cfg1 roots reps) zero_par (plain_draw 4 2) = Ok st /\ rvars st <> [] /\
    (forall v, In v (rvars st) -> ~ In v [7%nat; 9%nat]) /\ (forall v, In v (rvars st) -> In v [3; 1; 0; 2]%nat).
Proof.
  intros roots reps H1 H2. destruct (cfg1_built roots reps H1 H2) as (st & E & Q & _). exists st. rewrite Q. split; [exact E|]. split; [discriminate|].
  split; intros v Hv; cbn in *; lia.
Qed.
