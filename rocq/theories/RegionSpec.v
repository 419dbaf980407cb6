(** What a region graph is, independently of its traversals. *)
From Coq Require Import List ZArith Arith Bool Sorted.
From Verif Require Import Base ScopeModel RegionModel.
Import ListNotations.

(** [c] occurs in some partition of [r] *)
Definition is_child (c r : region) : Prop := exists p, In p (r_children r) /\ In c p.

(** [r] is in the graph below [root] *)
Inductive reach (root : region) : region -> Prop :=
| reach_root : reach root root
| reach_child r c : reach root r -> is_child c r -> reach root c.

(** Python's [a == b] on regions as a relation: same variables, and partitions equal
    position by position *)
Inductive region_equal : region -> region -> Prop :=
| region_equal_intro s u ps qs :
    (forall v, In v (query s) <-> In v (query u)) ->
    (forall v, In v (evidence s) <-> In v (evidence u)) ->
    Forall2 (Forall2 region_equal) ps qs ->
    region_equal (Region s ps) (Region u qs).

(** scopes stored in increasing order, as [Scope.join] returns them *)
Definition sorted_scope (s : scope) : Prop :=
  StronglySorted lt (query s) /\ StronglySorted lt (evidence s).
