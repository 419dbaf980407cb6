(** Specification vocabulary for learn_cnet. *)
From Coq Require Import List Arith Bool Reals.
From Verif Require Import Base ScopeModel CircuitModel LearnModel CnetModel.
Import ListNotations.
Local Open Scope R_scope.

(** summing over all values of the variables [vs] *)
Fixpoint dsum (cards : nat -> nat) (vs : list nat) (f : row -> R) (x : row) : R :=
  match vs with
  | [] => f x
  | v :: rest => bsum (cards v) (fun k => dsum cards rest f (upd x v (Some (INR k))))
  end.

(** a row with integer values in range *)
Definition discrete (cards : nat -> nat) (q : list nat) (x : row) : Prop :=
  forall v, In v q -> exists k, (k < cards v)%nat /\ x v = Some (INR k).

(** the rows that agree with [x] on [vs] *)
Definition agreeing (x : row) (vs : list nat) (data : dataset) : dataset :=
  filter (fun y => forallb (fun v => match y v, x v with Some a, Some b => reqb a b | _, _ => false end) vs) data.
(** the rows with the values [ass] *)
Definition with_values (ass : list (nat * nat)) (data : dataset) : dataset := fold_left (fun d vk => slice d (fst vk) (snd vk)) ass data.

(** in every subset of the data given by fixing values, each variable takes all of its
    values or at most one *)
Definition no_gaps (cards : nat -> nat) (q : list nat) (data : dataset) : Prop :=
  forall ass v, In v q -> let d := with_values ass data in
    (forall k, (k < cards v)%nat -> slice d v k <> []) \/
    (forall i j, (i < cards v)%nat -> (j < cards v)%nat -> slice d v i <> [] -> slice d v j <> [] -> i = j).

(** the variables of [q] not in [pre] *)
Definition rest (pre q : list nat) : list nat := filter (fun v => negb (memb v pre)) q.
(** average over the channels *)
Definition mean (oc : nat) (f : nat -> R) : R := bsum oc f / INR oc.
