(** Specification vocabulary for continuous mixtures (C208-C219). *)
From Coq Require Import List Arith ZArith Bool Reals.
From Verif Require Import Base CircuitModel Integral LeafModel CltModel CltSpec CmsModel.
Import ListNotations.
Local Open Scope R_scope.

(** probability (density) of one cell under the parameters [out] decoded for one
    integration point; a missing cell is marginalised *)
Definition cell_prob (fm : family) (F : nat) (out : nat -> R) (f : nat) (o : option R) : R :=
  match o with
  | None => 1
  | Some a =>
      match fm with
      | Bern => if Req_EM_T a 1 then sigmoid (out f) else 1 - sigmoid (out f)
      | Catg None => 0
      | Catg (Some K) =>
          let k := Z.to_nat (Int_part a) in
          exp (out (f * K + k)%nat) / bsum K (fun j => exp (out (f * K + j)%nat))
      | Gauss eps =>
          let m := out f in
          let s := ln (1 + exp (out (F + f)%nat)) + eps in
          exp (- (a - m) ^ 2 / (2 * s ^ 2)) / (s * sqrt (2 * PI))
      end
  end.

(** the cells a family admits: missing, or a value of its range *)
Definition admissible (fm : family) (o : option R) : Prop :=
  match o with
  | None => True
  | Some a =>
      match fm with
      | Bern => a = 0 \/ a = 1
      | Catg None => False
      | Catg (Some K) => exists k, (k < K)%nat /\ a = INR k
      | Gauss _ => True
      end
  end.

(** parameters a user may pass: a number of categories of at least two, a
    non-negative minimum scale *)
Definition family_ok (fm : family) : Prop :=
  match fm with Bern => True | Catg None => False | Catg (Some K) => (2 <= K)%nat | Gauss eps => 0 <= eps end.

(** the range of the variables *)
Definition family_range (fm : family) : domain :=
  match fm with
  | Bern => DFin [0; 1]
  | Catg None => DFin []
  | Catg (Some K) => DFin (map INR (seq 0 K))
  | Gauss _ => DReal
  end.

(** mixture weights: positive, summing to one; [1e-30] is where training clamps them *)
Definition weights_ok (n : nat) (w : nat -> R) : Prop := (forall i, (i < n)%nat -> / 10 ^ 30 <= w i) /\ bsum n w = 1.

(** density of a row under the mixture over the integration points *)
Definition density (fm : family) (F n : nat) (out : nat -> nat -> R) (w : nat -> R) (x : row) : R :=
  bsum n (fun i => w i * bprod F (fun f => cell_prob fm F (out i) f (x f))).
(** mean log-likelihood of the rows under a model *)
Definition mean_ll (m : module) (rows : list row) : R := lsumR (map (fun x => fin (loglik m x 0 0 0)) rows) / INR (length rows).

(** parameters after [e] epochs *)
Fixpoint after {St} (epoch_step : nat -> St -> St) (s0 : St) (e : nat) : St :=
  match e with O => s0 | S k => epoch_step k (after epoch_step s0 k) end.

(** ** Chow-Liu trees: the conditional probability tables one row [raw] of decoder
    outputs stands for; the first K outputs are the root's logits, then come the
    logits of (feature, value, parent value), normalised over the value *)
Definition table (K root : nat) (raw : nat -> R) (f a p : nat) : R :=
  if Nat.eqb f root then exp (raw a) / bsum K (fun k => exp (raw k))
  else exp (raw (K + ((f * K + a) * K + p))%nat) / bsum K (fun k => exp (raw (K + ((f * K + k) * K + p))%nat)).
(** probability of the observed cells of a row under the mixture: [vs] are the
    missing features, [y] holds the observed values *)
Definition tree_mix (K root n : nat) (parents : list Z) (raw : nat -> nat -> R) (w : nat -> R) (vs : list nat) (y : nat -> nat) : R :=
  bsum n (fun i => w i * fsum K vs (tree_prob parents (table K root (raw i))) y).
(** 1 if the first [F] cells of the row hold the values [z], otherwise 0 *)
Definition row_is (F : nat) (z : nat -> nat) (x : cells) : R :=
  bprod F (fun f => match x f with Some a => if Req_EM_T a (INR (z f)) then 1 else 0 | None => 0 end).
