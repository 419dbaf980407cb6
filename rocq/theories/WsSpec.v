(** Specification vocabulary for WeightedSum. *)
From Coq Require Import List Arith Reals.
From Verif Require Import Base CircuitModel.
Local Open Scope R_scope.
Definition nonneg (w : wtensor) : Prop :=
  forall f i o r, (f < wF w)%nat -> (i < wI w)%nat -> (o < wO w)%nat -> (r < wR w)%nat -> 0 <= wv w f i o r.
