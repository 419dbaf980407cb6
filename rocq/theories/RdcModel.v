(** Model of the randomised dependence coefficient (spflow/utils/rdc.py, torch version) and
    of partition_by_rdc (spflow/learn/learn_spn.py 95-143).

    Abstract: torch.argsort, the random projections, and the eigenvalues of the canonical
    correlation matrix of the first [k] features (covariances, pseudo-inverses, eigvals:
    63-82).  The repeated version (n > 1) is not modelled. *)
From Coq Require Import List Arith Bool Reals.
From Verif Require Import Base CircuitModel PromModel.
Import ListNotations.
Local Open Scope R_scope.

(** ** Ranks *)
Fixpoint index_of (i : nat) (l : list nat) : nat :=
  match l with [] => 0%nat | a :: r => if Nat.eqb a i then 0%nat else S (index_of i r) end.
(** 184-200: rankdata_ordinal: ranks[sorted_indices] = 1, 2, ..., n *)
Definition ranks (argsort : list R -> list nat) (x : list R) : list R :=
  map (fun i => INR (S (index_of i (argsort x)))) (seq 0 (length x)).

(** a tensor of shape (n,) or (n, v), by columns *)
Inductive input := V1 (col : list R) | V2 (cols : list (list R)).
(** 35-51: the copula transformation, with a column of ones appended; torch.stack needs
    tensors of the same shape, so there must be exactly one variable *)
Definition copula (argsort : list R -> list nat) (x : input) : result (list R) :=
  let cols := match x with V1 c => [c] | V2 cs => cs end in
  match cols with
  | [c] => Ok (map (fun u => u / (INR (length c) * 1)) (ranks argsort c))
  | _ => Err
  end.
(** 54-61: feature [j] of sample value [u]: f((s / 2) (w_j u + b_j)) *)
Definition feature (f : R -> R) (s : R) (w : nat -> R * R) (u : R) (j : nat) : R :=
  f (u * (s / 2 * fst (w j)) + 1 * (s / 2 * snd (w j))).

(** ** The search for the number of features (70-113); [ok k]: the eigenvalues for [k]
    features are real (up to 1e-8) and in [0, 1].  With [k = 0] the minimum of an empty
    tensor raises *)
Inductive found := At (k : nat) | Raises | OutOfFuel.
Fixpoint search (fuel : nat) (ok : nat -> bool) (lb ub k : nat) : found :=
  match fuel with
  | O => OutOfFuel
  | S fuel' =>
      if Nat.eqb k 0 then Raises
      else if negb (ok k) then search fuel' ok lb (ub - 1) ((ub - 1 + lb) / 2)
      else if Nat.eqb lb ub then At k
      else let lb' := k in
           if Nat.eqb ub (lb' + 1) then search fuel' ok lb' ub ub else search fuel' ok lb' ub ((ub + lb') / 2)
  end.

(** eigenvalues (real part, imaginary part); 85-99 *)
Definition rmax_list (l : list R) : R := match l with [] => 0 | a :: r => fold_left Rmax r a end.
Definition eigs_ok (l : list (R * R)) : bool :=
  forallb (fun z => rle (Rabs (snd z)) (/ 10 ^ 8) && rle 0 (fst z) && rle (fst z) 1)%bool l.
(** 6-119 with n = 1.  [eigenvalues fx fy k]: the canonical correlations of the first [k]
    features of both inputs; it may raise.  [fuel] bounds the loop, see C243 *)
Definition rdc (argsort : list R -> list nat) (f : R -> R) (s : R) (fuel k : nat) (wx wy : nat -> R * R)
  (eigenvalues : (list (nat -> R)) -> (list (nat -> R)) -> nat -> list (R * R)) (x y : input) : result R :=
  bind (copula argsort x) (fun cx =>
  bind (copula argsort y) (fun cy =>
  if negb (Nat.eqb (length cx) (length cy)) then Err (* torch.hstack, 64 *)
  else
    let E := eigenvalues (map (feature f s wx) cx) (map (feature f s wy) cy) in
    match search fuel (fun j => eigs_ok (E j)) 1 k k with
    | At j => Ok (sqrt (rmax_list (map fst (E j))))
    | _ => Err
    end)).

(** ** learn_spn.py 95-143 *)
(** 127-134: the matrix entry of features i <> j after thresholding *)
Definition entry (threshold : R) (r : nat -> nat -> R) (i j : nat) : R :=
  let v := r (Nat.min i j) (Nat.max i j) in if rlt v threshold then 0 else v.
Definition rdc_edges (d : nat) (threshold : R) (r : nat -> nat -> R) : list (nat * nat) :=
  filter (fun p => Nat.ltb (fst p) (snd p) && negb (if Req_EM_T (entry threshold r (fst p) (snd p)) 0 then true else false))%bool
    (list_prod (seq 0 d) (seq 0 d)).
(** position of the block of [v] *)
Fixpoint block_index (v : nat) (B : list (list nat)) : nat :=
  match B with [] => 0%nat | b :: r => if existsb (Nat.eqb v) b then 0%nat else S (block_index v r) end.
(** 136-141: [r i j] is the result of rdc on columns i < j *)
Definition partition_ids (d : nat) (threshold : R) (r : nat -> nat -> R) : list nat :=
  map (fun v => S (block_index v (comps d (rdc_edges d threshold r)))) (seq 0 d).
(** 123-143: the default dtype ([dt]) is set to float64 (true) and restored on every exit *)
Definition partition_by_rdc (dt : bool) (d : nat) (threshold : R) (r : nat -> nat -> result R) : result (list nat) * bool :=
  let pairs := filter (fun p => Nat.ltb (fst p) (snd p)) (list_prod (seq 0 d) (seq 0 d)) in
  let body :=
    if forallb (fun p => match r (fst p) (snd p) with Ok _ => true | Err => false end) pairs
    then Ok (partition_ids d threshold (fun i j => match r i j with Ok v => v | Err => 0 end)) else Err in
  (body, dt).
