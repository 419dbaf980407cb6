(** Specification vocabulary for spanning trees of the complete graph on [n] nodes
    given as lists of edges (i, j) with i < j (C53, C168-C172). *)
From Coq Require Import List Arith Reals.
From Verif Require Import Base CltSpec.
Import ListNotations.

(** a spanning tree whose edges are written smaller index first; [spanning]
    (CltSpec) is: edges within the nodes, every two nodes linked, n - 1 edges *)
Definition tree (n : nat) (T : list (nat * nat)) : Prop :=
  spanning n T /\ forall u v, In (u, v) T -> (u < v)%nat.
(** the same set of edges *)
Definition same_tree (T T' : list (nat * nat)) : Prop := forall e, In e T <-> In e T'.
(** a matrix without NaN, with values [w] *)
Definition matrix_is (n : nat) (m : nat -> nat -> option R) (w : nat -> nat -> R) : Prop :=
  forall i j, (i < n)%nat -> (j < n)%nat -> m i j = Some (w i j).
(** no two of the listed trees are equal *)
Definition distinct_trees (out : list (list (nat * nat))) : Prop :=
  forall i j, (i < length out)%nat -> (j < length out)%nat -> same_tree (nth i out []) (nth j out []) -> i = j.
