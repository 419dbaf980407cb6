(** The structural graph below a module, independently of the traversal. *)
From Coq Require Import List Arith.
From Verif Require Import Base StatsModel.
Import ListNotations.

(** paths along child references *)
Fixpoint path (G : heap) (l : list nat) : Prop :=
  match l with
  | a :: ((b :: _) as r) => In b (children G a) /\ path G r
  | _ => True
  end.
Inductive reach (G : heap) (root : nat) : nat -> Prop :=
| reach_root : reach G root root
| reach_child n c : reach G root n -> In c (children G n) -> reach G root c.

(** some node below [root] lies on a cycle *)
Definition cyclic (G : heap) (root : nat) : Prop :=
  exists n l, reach G root n /\ path G (n :: l ++ [n]).
(** the longest path from [n] has [d] nodes *)
Definition longest (G : heap) (n d : nat) : Prop :=
  (exists l, path G (n :: l) /\ length (n :: l) = d) /\ forall l, path G (n :: l) -> length (n :: l) <= d.

(** references to [n] from the nodes [l] *)
Definition refs_to (G : heap) (l : list nat) (n : nat) : nat :=
  list_sum (map (fun p => count_occ Nat.eq_dec (children G p) n) l).
