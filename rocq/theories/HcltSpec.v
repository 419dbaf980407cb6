(** Specification vocabulary for the pairwise tables of Chow-Liu learning (C173-C178). *)
From Coq Require Import List Arith ZArith Bool Reals.
From Verif Require Import Base CltSpec MstSpec.
Import ListNotations.
Local Open Scope R_scope.

(** [p] is a distribution of two variables with [K] values each, with marginals [q]
    and [r] *)
Definition joint_table (K : nat) (p : nat -> nat -> R) (q r : nat -> R) : Prop :=
  (forall a b, (a < K)%nat -> (b < K)%nat -> 0 <= p a b) /\
  (forall a, (a < K)%nat -> bsum K (p a) = q a) /\
  (forall b, (b < K)%nat -> bsum K (fun a => p a b) = r b) /\
  bsum K q = 1 /\ bsum K r = 1.
(** the mutual information of the two variables, and the entropy of one *)
Definition mutual_information (K : nat) (p : nat -> nat -> R) : R :=
  bsum K (fun a => bsum K (fun b => p a b * ln (p a b / (bsum K (p a) * bsum K (fun a' => p a' b))))).
Definition entropy (K : nat) (q : nat -> R) : R := - bsum K (fun a => q a * ln (q a)).

(** smoothed weighted frequencies: [d] lists weighted rows; the mass [pc] is spread
    evenly over the values (CltSpec.wsum is the total weight of the selected rows) *)
Definition freq1 (d : list (R * (nat -> nat))) (pc : R) (K i a : nat) : R :=
  (wsum d (fun x => Nat.eqb (x i) a) + pc / INR K) / (wsum d (fun _ => true) + pc).
Definition freq2 (d : list (R * (nat -> nat))) (pc : R) (K i j a b : nat) : R :=
  (wsum d (fun x => Nat.eqb (x i) a && Nat.eqb (x j) b)%bool + pc / INR (K * K)) / (wsum d (fun _ => true) + pc).
(** every possible pair of values is not too rare *)
Definition not_rare (d : list (R * (nat -> nat))) (pc eps : R) (K f : nat) : Prop :=
  forall i j a b, (i < f)%nat -> (j < f)%nat -> i <> j -> (a < K)%nat -> (b < K)%nat ->
    0 < freq2 d pc K i j a b -> eps <= freq2 d pc K i j a b.
(** and every product of two possible values' frequencies is at least [eps] *)
Definition product_not_rare (d : list (R * (nat -> nat))) (pc eps : R) (K f : nat) : Prop :=
  forall i j a b, (i < f)%nat -> (j < f)%nat -> (a < K)%nat -> (b < K)%nat ->
    0 < freq1 d pc K i a -> 0 < freq1 d pc K j b -> eps <= freq1 d pc K i a * freq1 d pc K j b.

(** the sample weights [ws] of [n] rows given by the caller's argument; without it all
    rows weigh one *)
Definition weights_are (n : nat) (weights : option (list (option R))) (ws : list R) : Prop :=
  (weights = None /\ ws = repeat 1 n) \/ (weights = Some (map Some ws) /\ length ws = n).
Definition nonneg_weights (ws : list R) : Prop := Forall (fun a => 0 <= a) ws.
(** binary data: NaN and every number except zero count as one *)
Definition bitn (c : option R) : nat := match c with Some v => if Req_EM_T v 0 then 0%nat else 1%nat | None => 1%nat end.
Definition bin_rows (data : list (nat -> option R)) (ws : list R) : list (R * (nat -> nat)) :=
  map (fun rw => (snd rw, fun i => bitn (fst rw i))) (combine data ws).
(** categorical data: complete and within range; with weights the pseudocount is scaled
    by their mean *)
Definition in_range (f K : nat) (data : list (nat -> option Z)) : Prop :=
  forall r i, In r data -> (i < f)%nat -> exists z, r i = Some z /\ (0 <= z < Z.of_nat K)%Z.
Definition cat_rows (data : list (nat -> option Z)) (ws : list R) : list (R * (nat -> nat)) :=
  map (fun rw => (snd rw, fun i => Z.to_nat (match fst rw i with Some z => z | None => 0%Z end))) (combine data ws).
Definition cat_pc (weights : option (list (option R))) (n : nat) (pc : R) (ws : list R) : R :=
  match weights with Some _ => pc * lsumR ws / INR n | None => pc end.

(** [out] lists the at most [k] best spanning trees by total [score], best first *)
Definition best_trees (f k : nat) (score : nat -> nat -> R) (out : list (list (nat * nat))) : Prop :=
  (0 < length out <= k)%nat /\ Forall (tree f) out /\ distinct_trees out /\
  (forall i j, (i < j < length out)%nat -> weight score (nth j out []) <= weight score (nth i out [])) /\
  (forall T, tree f T -> (exists T', In T' out /\ same_tree T T') \/
     (length out = k /\ forall T', In T' out -> weight score T <= weight score T')).
