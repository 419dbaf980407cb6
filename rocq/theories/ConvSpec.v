(** Specification vocabulary of the convolutional circuits. *)
From Coq Require Import List Arith Bool.
From Verif Require Import Base ScopeModel CircuitModel CircuitSpec CircuitEval Integral CircuitMarg SampleModel SampleSpec ConvModel.
Import ListNotations.
Local Open Scope R_scope.

(** the circuit under the convolutional part *)
Fixpoint vbase (v : cv) : module :=
  match v with
  | VMod m => m
  | VSum c _ _ _ | VProduct c | VSumConv c _ _ _ _ | VProdConv c _ _ _ _ => vbase c
  end.

(** every pixel of the input lies in a window of some output *)
Fixpoint covered (v : cv) : Prop :=
  match v with
  | VMod _ => True
  | VSum c _ _ _ | VProduct c | VSumConv c _ _ _ _ => covered c
  | VProdConv c kh kw ph pw => covered c /\ (side c + ph <= kh * conv_out (side c) kh ph)%nat /\ (side c + pw <= kw * conv_out (side c) kw pw)%nat
  end.

(** kernels divide the grid, no padding *)
Fixpoint exact_fit (v : cv) : Prop :=
  match v with
  | VMod _ => True
  | VSum c _ _ _ | VProduct c => exact_fit c
  | VSumConv c _ K _ _ => exact_fit c /\ (side c mod K = 0)%nat
  | VProdConv c kh kw ph pw => exact_fit c /\ ph = 0%nat /\ pw = 0%nat /\ (side c mod kh = 0)%nat /\ (side c mod kw = 0)%nat
  end.

(** every Sum and SumConv gives the row [e] positive probability *)
Fixpoint vsums_positive (v : cv) (e : row) : Prop :=
  match v with
  | VMod m => sums_positive m e
  | VProduct c | VProdConv c _ _ _ _ => vsums_positive c e
  | VSum c _ _ _ | VSumConv c _ _ _ _ => vsums_positive c e /\
      forall f k, (f < features (vshape v))%nat -> (k < channels (vshape v))%nat -> vprob v e f k 0 <> 0
  end.

Fixpoint vleaves (v : cv) : list leaf :=
  match v with
  | VMod m => leaves_of m
  | VSum c _ _ _ | VProduct c | VSumConv c _ _ _ _ | VProdConv c _ _ _ _ => vleaves c
  end.

(** Cat modules below agree on their per-feature scopes (CircuitSpec) *)
Fixpoint valigned (v : cv) : Prop :=
  match v with
  | VMod m => aligned m
  | VSum c _ _ _ | VProduct c | VSumConv c _ _ _ _ | VProdConv c _ _ _ _ => valigned c
  end.

Definition vleaves_norm D v := Forall (leaf_norm D) (vleaves v).

(** Probability of a (partial) row under the distribution that sample() draws from:
    channel 0 and repetition 0 of every output feature. *)
Definition vjoint (v : cv) (y : row) : R := bprod (features (vshape v)) (fun f => vprob v y f 0 0).

(** The padding that centres [n] pixels on [ceil(n/target)*target] cells is the same
    on both sides. *)
Definition fits (n target : nat) : Prop := ((ceil_div n target * target - n) mod 2 = 0)%nat.
