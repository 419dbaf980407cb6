(** Specification vocabulary for the scikit-learn wrappers (C231-C238). *)
From Coq Require Import List Arith Bool.
From Verif Require Import Base CircuitModel SkModel.
Import ListNotations.
Local Open Scope R_scope.

(** the weight of entry [i] of [n] *)
Definition aweight (a : agg) (n i : nat) : R :=
  match a with
  | LogMeanExp => 1 / INR n
  | LogSumExp => 1
  | First => if Nat.eqb i 0 then 1 else 0
  | Unknown => 1
  end.
(** the weighted sum over channels and repetitions of the product over features *)
Definition mixture (m : module) (s : shape) (ca ra : agg) (x : row) : R :=
  bsum (channels s) (fun c => aweight ca (channels s) c *
    bsum (repetitions s) (fun r => aweight ra (repetitions s) r * bprod (features s) (fun f => prob m x f c r))).
(** the total of the weights *)
Definition atotal (a : agg) (n : nat) : R := match a with LogSumExp => INR n | _ => 1 end.
