(** Specification vocabulary for RDC. *)
From Coq Require Import List Arith Reals Relations Permutation.
From Verif Require Import Base CircuitModel.
Import ListNotations.
Local Open Scope R_scope.

(** a correct argsort: positions in order of increasing value (any order among ties) *)
Definition sorts (argsort : list R -> list nat) : Prop :=
  forall x, Permutation (argsort x) (seq 0 (length x)) /\
    forall i j, (i < j)%nat -> (j < length x)%nat -> nth (nth i (argsort x) 0%nat) x 0 <= nth (nth j (argsort x) 0%nat) x 0.
(** how many values of [x] are below [v] *)
Definition smaller (x : list R) (v : R) : nat := length (filter (fun u => if Rlt_dec u v then true else false) x).
Definition increasing (g : R -> R) : Prop := forall a b, a < b -> g a < g b.

(** the coefficient of features u < v reaches the threshold (and is not zero) *)
Definition dependent (d : nat) (threshold : R) (coef : nat -> nat -> result R) (u v : nat) : Prop :=
  (u < v)%nat /\ (v < d)%nat /\ exists c, coef u v = Ok c /\ threshold <= c /\ c <> 0.
(** joined by a chain of dependent pairs *)
Definition together (d : nat) (threshold : R) (coef : nat -> nat -> result R) : nat -> nat -> Prop :=
  clos_refl_sym_trans nat (dependent d threshold coef).

(** all eigenvalues real (up to 1e-8) and between 0 and 1 *)
Definition valid_eigenvalues (l : list (R * R)) : Prop :=
  forall z, In z l -> Rabs (snd z) <= / 10 ^ 8 /\ 0 <= fst z <= 1.
