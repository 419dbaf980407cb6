(** Specification vocabulary for maximum-likelihood estimation (C31, C81-C85). *)
From Coq Require Import List Arith Bool Reals.
From Verif Require Import Base LeafModel LeafSpec MleModel.
Import ListNotations.
Local Open Scope R_scope.

(** no cell of the row is missing *)
Definition complete (F : nat) (o : obs) : Prop := forall f, (f < F)%nat -> o_cell o f <> None.

(** [samples F f c r d l]: [l] lists (weight at the entry, value of feature [f])
    of the complete rows of [d], in order *)
Inductive samples (F f c r : nat) : list obs -> list (R * R) -> Prop :=
| samples_nil : samples F f c r [] []
| samples_keep o a d l : complete F o -> o_cell o f = Some a -> samples F f c r d l ->
    samples F f c r (o :: d) ((o_w o f c r, a) :: l)
| samples_drop o d l : ~ complete F o -> samples F f c r d l -> samples F f c r (o :: d) l.

(** weights are never negative *)
Definition weights_nonneg (d : list obs) : Prop := forall o f c r, In o d -> 0 <= o_w o f c r.

(** what an entry holds after the update: a member of the family with finite
    parameters *)
Definition holds (res : nat -> nat -> nat -> option estimate) (f c r : nat) (fm : fam) : Prop :=
  exists e, res f c r = Some e /\ stored_fam e = Some fm.

(** [fm] has the largest weighted log-likelihood among the members of its family *)
Definition maximises (fm : fam) (l : list (R * R)) : Prop :=
  forall fm', same_family fm fm' -> wll fm' l <= wll fm l.

Definition mean (l : list R) : R := lsumR l / INR (length l).
(** the unbiased sample variance *)
Definition unbiased_var (l : list R) : R :=
  lsumR (map (fun a => (a - mean l) ^ 2) l) / (INR (length l) - 1).
