(** Specification vocabulary of C313-C315. *)
From Coq Require Import List Arith ZArith Bool.
From Verif Require Import Base ScopeModel CircuitModel CircuitSpec CircuitEval MargModel.
Import ListNotations.

(** A circuit that marginalize handles (C05), with log_likelihood shape [s]. *)
Definition marginalisable (m : module) (s : shape) : Prop :=
  built m /\ aligned m /\ reps_ok m /\ no_evidence m /\ ll_shape m = Ok s.

(** feature [f] of [m] keeps a variable outside [S] *)
Definition survives (S : list nat) (m : module) (f : nat) : Prop :=
  (f < features (out_shape m))%nat /\ exists v, In v (nth f (fts m) []) /\ ~ In v S.
