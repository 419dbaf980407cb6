(** Vocabulary for mpe (C304). *)
From Coq Require Import List Arith Reals.
From Verif Require Import Base ScopeModel CircuitModel CircuitSpec Integral CircuitMarg SampleModel SampleSpec SampleExp.
Import ListNotations.
Local Open Scope R_scope.

(** a value a variable of domain [d] can take *)
Definition insup (d : domain) (a : R) : Prop :=
  match d with DFin l => In a l | DNat => exists k, a = INR k | DReal => False end.
(** the mode every leaf reports is a value of the variable with positive density *)
Definition modes_possible (D : nat -> domain) (m : module) : Prop :=
  forall l f c r, In l (leaves_of m) -> leaf_range l f c r ->
    insup (D (colv l f)) (l_mode l f c r) /\ l_lp l f c r (l_mode l f c r) <> NInf.

