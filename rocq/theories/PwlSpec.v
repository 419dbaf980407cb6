(** Specification vocabulary for PiecewiseLinear leaves (C52, C136-C141). *)
From Coq Require Import List Arith Bool Reals.
From Verif Require Import Base CircuitModel Integral HistModel PwlModel.
Import ListNotations.
Local Open Scope R_scope.

(** Valid knots: at least two, strictly increasing, non-negative heights, zero at both ends. *)
Definition pw_ok (w : pw) : Prop :=
  (2 <= length (p_xs w))%nat /\ length (p_ys w) = length (p_xs w) /\
  (forall k, (S k < length (p_xs w))%nat -> nth k (p_xs w) 0 < nth (S k) (p_xs w) 0) /\
  (forall k, (k < length (p_ys w))%nat -> 0 <= nth k (p_ys w) 0) /\
  nth 0 (p_ys w) 0 = 0 /\ nth (length (p_ys w) - 1) (p_ys w) 0 = 0.

(** The area under the polygon through the knots, by the trapezoid rule. *)
Definition polygon_area (w : pw) : R :=
  bsum (length (p_xs w) - 1) (fun k =>
    (nth (S k) (p_xs w) 0 - nth k (p_xs w) 0) * (nth k (p_ys w) 0 + nth (S k) (p_ys w) 0) / 2).

(** Number of samples equal to [v]. *)
Definition occurrences (v : R) (l : list R) : nat := length (filter (fun x => if Req_EM_T x v then true else false) l).

(** [v] is the height at [x] of the polygon through the knots (0 outside them). *)
Definition polygon (w : pw) (x v : R) : Prop :=
  (exists k, (S k < length (p_xs w))%nat /\ nth k (p_xs w) 0 <= x <= nth (S k) (p_xs w) 0 /\
     v = nth k (p_ys w) 0 + (nth (S k) (p_ys w) 0 - nth k (p_ys w) 0) * (x - nth k (p_xs w) 0) / (nth (S k) (p_xs w) 0 - nth k (p_xs w) 0)) \/
  ((x <= nth 0 (p_xs w) 0 \/ nth (length (p_xs w) - 1) (p_xs w) 0 <= x) /\ v = 0).

(** [x] lies in bin [b] of the edges [es]: half open, the last bin closed. *)
Definition in_bin_of (es : list R) (b : nat) (x : R) : Prop :=
  nth b es 0 <= x /\ (x < nth (S b) es 0 \/ (S (S b) = length es /\ x = nth (S b) es 0)).
(** [k] of the samples [l] satisfy [p] *)
Inductive holds_for {A} (p : A -> Prop) : list A -> nat -> Prop :=
| h_nil : holds_for p [] 0
| h_yes a l k : p a -> holds_for p l k -> holds_for p (a :: l) (S k)
| h_no a l k : ~ p a -> holds_for p l k -> holds_for p (a :: l) k.

(** consecutive values differ by one *)
Definition unit_spaced (vs : list R) : Prop := forall k, (S k < length vs)%nat -> nth (S k) vs 0 = nth k vs 0 + 1.
Definition sorted (vs : list R) : Prop := forall k, (S k < length vs)%nat -> nth k vs 0 < nth (S k) vs 0.

(** Values of feature [f] in the rows of [data] assigned to cluster [c]. *)
Definition members (data : list (list R)) (assign : nat -> nat) (c f : nat) : list R :=
  map (fun i => nth f (nth i data []) 0) (filter (fun i => Nat.eqb (assign i) c) (seq 0 (length data))).
(** What initialize() needs of a feature's domain and of the cluster's values:
    increasing discrete values, one of which (or the unit interval above the last)
    the data meets; for an empty cluster of a continuous feature a proper range
    (a bound that is missing or 0 is replaced by 0 below and 1 above). *)
Definition fits (d : pdomain) (l : list R) : Prop :=
  match d with
  | PDiscrete vs => vs <> [] /\ sorted vs /\ (l = [] \/ exists x, In x l /\ hd 0 vs <= x <= last vs 0 + 1)
  | PContinuous mn mx => l <> [] \/ (match mn with Some a => a | None => 0 end) < (match mx with Some b => if Req_EM_T b 0 then 1 else b | None => 1 end)
  end.
