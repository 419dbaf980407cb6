(** Specification vocabulary for prune_sums. *)
From Coq Require Import List Arith.
From Verif Require Import Base ScopeModel CircuitModel CircuitSpec.
Import ListNotations.

Definition is_sum (m : module) : Prop := exists c co rr lg, m = MSum c co rr lg.
Definition one_channel (m : module) : Prop := forall c co rr lg, m = MSum c co rr lg -> co = 1%nat.

(** Which circuits: a Sum mixes over channels (its input is not a Cat along features), and
    a Sum that feeds another Sum, directly or through a Cat along channels, has a single
    output channel. *)
Definition mixes_single_channels (m : module) : Prop := forall n, node_of n m ->
  match n with
  | MSum ch _ _ _ => one_channel ch /\ forall sc cs, ch <> MCat false sc cs
  | MCat true _ cs => Forall one_channel cs
  | _ => True
  end.

(** a Sum over a Cat whose inputs are all Sums *)
Definition collapsible (n : module) : Prop :=
  exists d2 sc cs co rr lg, n = MSum (MCat d2 sc cs) co rr lg /\ cs <> [] /\ Forall is_sum cs.
