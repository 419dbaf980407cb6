(** Model of zoo/hclt/mi.py and zoo/hclt/chow_liu.py: pairwise marginals and mutual
    information matrices, and the Chow-Liu tree learners on top of them.

    Data rows are functions of the feature; NaN is [None].  Sample weights are
    [None] when not finite.  Dtype and device moves are not modelled. *)
From Coq Require Import List Arith ZArith Bool Reals.
From Verif Require Import Base MstModel.
Import ListNotations.
Local Open Scope R_scope.

Fixpoint all_finite (ws : list (option R)) : option (list R) :=
  match ws with
  | [] => Some []
  | None :: _ => None
  | Some a :: r => match all_finite r with Some l => Some (a :: l) | None => None end
  end.
(** the weights of the rows: mi.py 61-71 and 184-192 *)
Definition sample_weights (n : nat) (weights : option (list (option R))) : result (list R) :=
  match weights with
  | None => Ok (repeat 1 n)
  | Some ws => if negb (Nat.eqb (length ws) n) then Err
               else match all_finite ws with Some l => Ok l | None => Err end
  end.
Definition rle0 (x : R) : bool := if Rle_dec x 0 then true else false.
Definition rlt0 (x : R) : bool := if Rlt_dec x 0 then true else false.

(** ** Binary data *)
(** data != 0 as a number (56-57); NaN != 0 is true *)
Definition bit (c : option R) : R := match c with Some v => if Req_EM_T v 0 then 0 else 1 | None => 1 end.
(** sum over the rows of [g row * weight] *)
Definition rsum {A} (rows : list (A * R)) (g : A -> R) : R := lsumR (map (fun rw => g (fst rw) * snd rw) rows).
(** pairwise_marginal_binary: mi.py 25-102; the table of the states 00, 01, 10, 11
    (numbered 0, 1, 2, 3) for every pair of features.  Adding joint_add = 0 changes
    nothing, so the tests [if joint_add] are not modelled. *)
Definition pairwise_marginal_binary (data : list (nat -> option R)) (weights : option (list (option R))) (pc : R)
  : result (nat -> nat -> nat -> R) :=
  if rlt0 pc then Err
  else bind (sample_weights (length data) weights) (fun ws =>
    let rows := combine data ws in
    let w_sum := lsumR ws in
    let base := w_sum + pc in
    if rle0 base then Err
    else
      let x i (r : nat -> option R) := bit (r i) in
      let c11 i j := rsum rows (fun r => x i r * x j r) in
      let c10 i j := rsum rows (fun r => x i r * (1 - x j r)) in
      let c01 i j := rsum rows (fun r => (1 - x i r) * x j r) in
      let c00 i j := Rmax (w_sum - c11 i j - c10 i j - c01 i j) 0 in
      let add := pc / 4 in
      let off i j s := match s with 0%nat => c00 i j | 1%nat => c01 i j | 2%nat => c10 i j | _ => c11 i j end + add in
      let diag i s := match s with 0%nat => off i i 0%nat + add | 3%nat => off i i 3%nat + add | _ => 0 end in
      Ok (fun i j s => (if Nat.eqb i j then diag i s else off i j s) / base)).

(** the clamped logarithms: 131-135 *)
Definition xlogy (eps p q : R) : R := if Req_EM_T p 0 then 0 else p * ln (Rmax q eps).
(** pairwise_mi_binary: mi.py 105-138 *)
Definition pairwise_mi_binary (data : list (nat -> option R)) (weights : option (list (option R))) (pc eps : R)
  : result (nat -> nat -> R) :=
  bind (pairwise_marginal_binary data weights pc) (fun pxy =>
    let p0 i := pxy i i 0%nat in
    let p1 i := pxy i i 3%nat in
    let pxpy i j s := match s with 0%nat => p0 i * p0 j | 1%nat => p0 i * p1 j | 2%nat => p1 i * p0 j | _ => p1 i * p1 j end in
    Ok (fun i j => bsum 4 (fun s => xlogy eps (pxy i j s) (pxy i j s) - xlogy eps (pxy i j s) (pxpy i j s)))).

(** ** Categorical data: values are integers *)
Definition complete (f : nat) (data : list (nat -> option Z)) : bool :=
  forallb (fun r => forallb (fun i => match r i with Some _ => true | None => false end) (seq 0 f)) data.
Definition zval (r : nat -> option Z) (i : nat) : Z := match r i with Some z => z | None => 0%Z end.
Definition all_values (f : nat) (data : list (nat -> option Z)) : list Z := flat_map (fun r => map (zval r) (seq 0 f)) data.
(** 177-178 and learn.py 189-190 *)
Definition infer_cats (f : nat) (data : list (nat -> option Z)) (num_cats : option nat) : nat :=
  match num_cats with
  | Some k => k
  | None => match all_values f data with [] => 0%nat | a :: l => Z.to_nat (fold_left Z.max l a + 1) end
  end.
(** the slices [start : start + size] for start in range(0, len, size): 225-228 *)
Fixpoint chunks {A} (fuel size : nat) (l : list A) : list (list A) :=
  match fuel with
  | O => []
  | S k => match l with [] => [] | _ => firstn size l :: chunks k size (skipn size l) end
  end.
(** torch.bincount with weights: 239 *)
Definition bincount (flat : list (nat * R)) (v : nat) : R :=
  lsumR (map snd (filter (fun kw => Nat.eqb (fst kw) v) flat)).
(** the flattened codes and weights of one chunk, row by row: 232-238 *)
Definition chunk_codes (K : nat) (rows : list ((nat -> nat) * R)) (pairs : list medge) : list (nat * R) :=
  flat_map (fun rw => map (fun b => let e := nth b pairs (0, 0)%nat in
      ((fst rw (fst e) * K + fst rw (snd e) + b * (K * K))%nat, snd rw)) (seq 0 (length pairs))) rows.
(** pairwise_mi_categorical: mi.py 141-254, [f] features *)
Definition pairwise_mi_categorical (f : nat) (data : list (nat -> option Z)) (num_cats : option nat)
  (weights : option (list (option R))) (pc eps : R) (chunk : nat) : result (nat -> nat -> R) :=
  let n := length data in
  if rlt0 pc then Err
  else if Nat.eqb chunk 0 then Err
  else if negb (complete f data) then Err
  else
    let K := infer_cats f data num_cats in
    if Nat.eqb K 0 then Err
    else if existsb (fun z => (Z.ltb z 0 || Z.leb (Z.of_nat K) z)%bool) (all_values f data) then Err
    else bind (sample_weights n weights) (fun ws =>
      (* 194: division by n, a ZeroDivisionError without rows *)
      if (match weights with Some _ => Nat.eqb n 0 | None => false end) then Err
      else
        let w_sum := lsumR ws in
        let pc' := match weights with Some _ => pc * w_sum / INR n | None => pc end in
        let Zt := w_sum + pc' in
        if rle0 Zt then Err
        else
          let rows := combine (map (fun r i => Z.to_nat (zval r i)) data) ws in
          let p_i i k := (rsum rows (fun r => if Nat.eqb (r i) k then 1 else 0) + pc' / INR K) / Zt in
          let lg p := ln (Rmax p eps) in
          let diag i := - bsum K (fun k => p_i i k * lg (p_i i k)) in
          let chunk_vals pairs :=
            map (fun b =>
              let e := nth b pairs (0, 0)%nat in
              let p_ij a c := (bincount (chunk_codes K rows pairs) (b * (K * K) + (a * K + c)) + pc' / INR (K * K)) / Zt in
              (e, bsum K (fun a => bsum K (fun c => p_ij a c * (lg (p_ij a c) - lg (p_i (fst e) a) - lg (p_i (snd e) c))))))
              (seq 0 (length pairs)) in
          let vals := flat_map chunk_vals (chunks (length (triu f)) chunk (triu f)) in
          Ok (fun i j => if Nat.eqb i j then diag i
                         else match find (fun ev => eqe (fst ev) (canon (i, j))) vals with
                              | Some ev => snd ev | None => 0 end)).

(** ** chow_liu.py *)
Definition eps_default : R := / 10 ^ 12.
(** learn_chow_liu_trees_binary: 18-42, [f] features *)
Definition learn_chow_liu_trees_binary (f : nat) (data : list (nat -> option R)) (num_trees : nat) (dropout : R)
  (weights : option (list (option R))) (pc : R) (masks : nat -> nat -> nat -> bool) : result (list (list medge)) :=
  if Nat.eqb num_trees 0 then Err
  else if rlt0 pc then Err
  else bind (pairwise_mi_binary data weights pc eps_default) (fun mi =>
    topk_mst f f (fun i j => Some (- mi i j)) num_trees dropout masks true).
(** learn_chow_liu_tree_binary: 45-62 *)
Definition learn_chow_liu_tree_binary (f : nat) (data : list (nat -> option R)) (dropout : R)
  (weights : option (list (option R))) (pc : R) (masks : nat -> nat -> nat -> bool) : result (list medge) :=
  bind (learn_chow_liu_trees_binary f data 1 dropout weights pc masks) (fun ts =>
    match ts with t :: _ => Ok t | [] => Err end).
(** learn_chow_liu_trees_categorical: 65-96 *)
Definition learn_chow_liu_trees_categorical (f : nat) (data : list (nat -> option Z)) (num_cats : option nat) (num_trees : nat) (dropout : R)
  (weights : option (list (option R))) (pc : R) (chunk : nat) (masks : nat -> nat -> nat -> bool) : result (list (list medge)) :=
  if Nat.eqb num_trees 0 then Err
  else if rlt0 pc then Err
  else bind (pairwise_mi_categorical f data num_cats weights pc eps_default chunk) (fun mi =>
    topk_mst f f (fun i j => Some (- mi i j)) num_trees dropout masks true).
(** learn_chow_liu_tree_categorical: 99-119 *)
Definition learn_chow_liu_tree_categorical (f : nat) (data : list (nat -> option Z)) (num_cats : option nat) (dropout : R)
  (weights : option (list (option R))) (pc : R) (chunk : nat) (masks : nat -> nat -> nat -> bool) : result (list medge) :=
  bind (learn_chow_liu_trees_categorical f data num_cats 1 dropout weights pc chunk masks) (fun ts =>
    match ts with t :: _ => Ok t | [] => Err end).
