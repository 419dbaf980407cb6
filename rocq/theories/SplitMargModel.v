(** Model of Split.marginalize: modules/ops/split.py 285-323 for SplitConsecutive,
    SplitInterleaved and SplitByIndex along the feature dimension, over inputs of
    the circuit model. *)
From Coq Require Import List Arith ZArith Bool.
From Verif Require Import Base ScopeModel CircuitModel MargModel SplitModel.
Import ListNotations.

(** the three classes; [indices] is stored by SplitByIndex only
    (split_by_index.py 57-76) *)
Inductive skind := Consecutive | Interleaved | ByIndex (indices : list (list Z)).

(** split.py 180-207: inputs and num_splits (scope and shape are the inputs') *)
Record split := mkSplit { sp_in : module; sp_kind : skind; sp_n : nat }.

(** what marginalize returns besides None: another module (the marginalised input,
    split.py 314-315) or a split *)
Inductive smarg := SInput (m : module) | SSplit (s : split).

(** split.py 317: [self.__class__(inputs=, dim=, num_splits=)].  SplitByIndex's
    __init__ has no parameter num_splits (split_by_index.py 34-39): TypeError *)
Definition respawn (s : split) (m : module) : result split :=
  match sp_kind s with
  | ByIndex _ => Err
  | k => Ok (mkSplit m k (sp_n s))
  end.

(** split.py 285-323 *)
Definition split_marg (S : list nat) (prune : bool) (s : split) : result (option smarg) :=
  if touches S (scope_of (sp_in s)) then
    bind (marg S prune (sp_in s)) (fun oc =>
      match oc with
      | Some m' =>
          if (prune && Nat.eqb (features (out_shape m')) 1)%bool then Ok (Some (SInput m'))
          else bind (respawn s m') (fun s' => Ok (Some (SSplit s')))
      | None => Ok None
      end)
  else Ok (Some (SSplit s)).

(** split_consecutive.py 65-82, split_interleaved.py 78-99, split_by_index.py
    153-176: one channel and repetition of the outputs' log-likelihoods: the
    features dealt out to the splits *)
Definition deal (k : skind) (n : nat) {A} (d : A) (l : list A) : result (list (list A)) :=
  match k with
  | Consecutive => split_consecutive n l
  | Interleaved => Ok (split_interleaved n l)
  | ByIndex g => Ok (split_by_index d g l)
  end.
Definition split_ll (s : split) (x : row) (c r : nat) : result (list (list lval)) :=
  deal (sp_kind s) (sp_n s) NInf (map (fun f => loglik (sp_in s) x f c r) (seq 0 (features (out_shape (sp_in s))))).
