(** Specification of consistent sampling contexts. *)
From Coq Require Import List Arith ZArith Bool Reals.
From Verif Require Import Base CtxModel.
Import ListNotations.

Section S.
Context {C P : Type}.
Variable diff : bool.

(** the specification: one batch size B and one feature width F *)
Definition consistent_at (B F : nat) (o : obj C P) : Prop :=
  (if diff then exists K, dims (o_ci o) = [B; F; K] else dims (o_ci o) = [B; F]) /\
  dims (o_mask o) = [B; F] /\
  (if diff then exists K, dims (o_rep o) = [B; K] else dims (o_rep o) = [B]) /\
  dt (o_mask o) = DBool /\ dev (o_mask o) = dev (o_ci o) /\ dev (o_rep o) = dev (o_ci o).
Definition consistent (o : obj C P) : Prop := exists B F, consistent_at B F o.
(** batch sizes only *)
Definition batch_consistent (o : obj C P) : Prop :=
  exists B, (exists l, dims (o_ci o) = B :: l) /\ (exists l, dims (o_mask o) = B :: l) /\ (exists l, dims (o_rep o) = B :: l).

(** which operations keep shapes consistent: all but the two property setters and
    update() without repetition_index *)
Definition safe_op (x : op C P) : bool :=
  match x with OpSetChannel _ | OpSetMask _ | OpUpdate _ _ None => false | _ => true end.
Definition rep_given (x : op C P) : bool := match x with OpUpdate _ _ None => false | _ => true end.

(** dtypes of a context that was accepted once *)
Definition typed (o : obj C P) : Prop := chan_ok diff (o_ci o) = true /\ rep_ok diff (o_rep o) = true.

End S.
