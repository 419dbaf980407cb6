(** Specification vocabulary for Histogram leaves (C33, C99-C103). *)
From Coq Require Import List Arith Bool Reals.
From Verif Require Import Base CircuitModel Integral HistModel.
Import ListNotations.
Local Open Scope R_scope.

(** what the constructors accept: increasing edges; not all logits -inf, min_prob >= 0 *)
Definition hist_ok (h : hist) : Prop :=
  (2 <= length (h_edges h))%nat /\
  (forall b, (b < nbins h)%nat -> edge h b < edge h (S b)) /\
  0 <= h_minp h /\ exists b, (b < nbins h)%nat /\ h_logits h b <> NInf.

Definition in_bin (h : hist) (b : nat) (x : R) : Prop := edge h b <= x < edge h (S b).

(** [m] is the greatest of the first [n] values *)
Definition greatest (n : nat) (g : nat -> R) (m : R) : Prop :=
  (forall i, (i < n)%nat -> g i <= m) /\ exists i, (i < n)%nat /\ m = g i.

(** no bin's density is below the floor that log_prob clamps to *)
Definition clamp_free (h : hist) : Prop :=
  forall b w, (b < nbins h)%nat -> greatest (nbins h) (fun i => edge h (S i) - edge h i) w ->
    h_minp h / w <= h_probs h b / (edge h (S b) - edge h b).

(** total weight of the samples in bin [b] *)
Definition binb (h : hist) (b : nat) (x : R) : bool :=
  if Rle_dec (edge h b) x then (if Rlt_dec x (edge h (S b)) then true else false) else false.
Definition weight_in (h : hist) (l : list (R * R)) (b : nat) : R :=
  lsumR (map fst (filter (fun p => binb h b (snd p)) l)).
Definition total (l : list (R * R)) : R := lsumR (map fst l).
(** relative frequency of bin [b] *)
Definition freq (h : hist) (l : list (R * R)) (b : nat) : R := weight_in h l b / total l.

Definition within (h : hist) (l : list (R * R)) : Prop :=
  forall p, In p l -> 0 <= fst p /\ edge h 0 <= snd p < edge h (nbins h).

(** weighted log-likelihood of the piecewise constant density with bin masses [q] *)
Definition hll (h : hist) (q : nat -> R) (l : list (R * R)) : R :=
  bsum (nbins h) (fun b => weight_in h l b * ln (q b / (edge h (S b) - edge h b))).
