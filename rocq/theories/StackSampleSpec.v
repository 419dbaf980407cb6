(** Vocabulary of the statements about sampling from RatSPN and Einet. *)
From Coq Require Import List Arith Bool Reals.
From Verif Require Import Base ScopeModel CircuitModel CircuitSpec CircuitEval Integral SampleModel SampleSpec EmModel LayerModel FactorModel StackModel StackSpec StackEinSpec StackPostSpec.
Import ListNotations.
Local Open Scope R_scope.
(** every leaf module is a single leaf with as many repetitions as the model *)
Definition leafy (reps : nat) (leaves : list module) : Prop := Forall (fun m => exists l, m = MLeaf l /\ l_rep l = reps) leaves.
(** [y] completes [e]: it gives the missing cells [vs] values of their domains *)
Definition completes (dom : nat -> list R) (vs : list nat) (e y : row) : Prop :=
  (forall v, In v vs -> exists b, y v = Some b /\ In b (dom v)) /\ forall v, ~ In v vs -> y v = e v.
(** [y] on the cells [vs], everything else missing *)
Definition only (vs : list nat) (y : row) : row := fun v => if in_dec Nat.eq_dec v vs then y v else None.
(** no observed value is impossible under any channel of its leaf *)
Definition possible (m : module) (s : shape) (e : row) : Prop := forall f c r, in_shape s f c r -> loglik m e f c r <> NInf.
(** all columns of the model exist in a data tensor of [W] columns *)
Definition columns_in (m : module) (W : nat) : Prop := forall v, vars m v -> (v < W)%nat.

(** class [q] of a RatSPN / Einet with the leaf values [L] (feature, channel, repetition);
    on the leaves' probabilities of a row these are the class densities
    [rat_class], [ein_class_density] of that row *)
Definition rat_class_of (c : rat_cfg) (p : rat_par) (k : split_kind) (m : module) (grp : nat -> nat -> nat -> bool) (L : nat -> nat -> nat -> R) (q : nat) : R :=
  bsum (ra_reps c) (fun r => softmax (ra_reps c) (rp_mix p 0%nat q) r *
    region (ra_depth c) (ra_outer c) k (rat_channels (ra_depth c) (channels (out_shape m)) (ra_root c) (ra_region c)) (rp_sum p)
      (group_prob (length (query (scope_of m))) grp L) (ra_depth c) 0 q r).
Definition ein_class_of (c : ein_cfg) (p : ein_par) (m : module) (grp : nat -> nat -> nat -> bool) (L : nat -> nat -> nat -> R) (q : nat) : R :=
  bsum (ei_reps c) (fun r => softmax (ei_reps c) (ep_mix p 0%nat q) r *
    ein_class c p (channels (out_shape m)) (length (query (scope_of m))) (group_prob (length (query (scope_of m))) grp L) q r).
(** [L] is, cell by cell, the leaf probability of the evidence [e], a missing cell being
    replaced by the expectation of its test function under the leaf *)
Definition leaf_expects (D : nat -> domain) (h : nat -> R -> R) (m : module) (s : shape) (e : row) (L : nat -> nat -> nat -> R) : Prop :=
  forall i c r, in_shape s i c r ->
    exists vs, missing e (nth i (fts m) []) vs /\ sums_over D vs (fun y => prob m y i c r * tests h vs y) e (L i c r).

(** the log-likelihood of every possible row is the logarithm of [dens] *)
Definition explains (st : stack) (m : module) (s : shape) (dens : row -> R) : Prop :=
  forall x, possible m s x -> exists t, stack_ll st x = Ok t /\ t_sh (n_t t) = mkShape 1 1 1 /\ 0 < dens x /\ nval t 0 0 0 = FFin (ln (dens x)).
(** a RatSPN / an Einet over leaves [m] (log-likelihood shape [s]) that can be sampled:
    leaves with as many repetitions as the model, and one root node (class) or one
    repetition (with both, see C76: the repetition is drawn for all classes at once) *)
Record rat_sampler (leaves : list module) (c : rat_cfg) (p : rat_par) (d : draw) (k : split_kind) (m : module) (s : shape) (W : nat) (st : stack) : Prop := {
  rs_leaves : leaves_ok leaves m s (ra_reps c);
  rs_leafy : leafy (ra_reps c) leaves;
  rs_draw : draw_ok (length (query (scope_of m))) (ra_depth c) d;
  rs_reps : (1 <= ra_reps c)%nat;
  rs_mode : rat_mode c = Ok (k, 2%nat);
  rs_kind : k <> ByIndex;
  rs_made : mk_rat leaves c p d = Ok st;
  rs_cols : columns_in m W;
  rs_one : ra_root c = 1%nat \/ ra_reps c = 1%nat }.
Record ein_sampler (leaves : list module) (c : ein_cfg) (p : ein_par) (d : draw) (m : module) (s : shape) (W : nat) (st : stack) : Prop := {
  es_leaves : leaves_ok leaves m s (ei_reps c);
  es_leafy : leafy (ei_reps c) leaves;
  es_draw : draw_ok (length (query (scope_of m))) (ein_fdepth c (length (query (scope_of m)))) d;
  es_made : mk_einet leaves c p d = Ok st;
  es_cols : columns_in m W;
  es_one : ei_classes c = 1%nat \/ ei_reps c = 1%nat }.
