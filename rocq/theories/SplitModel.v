(** Model of the feature splits: modules/ops/split_consecutive.py,
    split_interleaved.py, split_by_index.py, along the feature dimension (dim=1).
    A tensor is the list of its feature slices; batch, channel and repetition
    dimensions ride along in the element type. *)
From Coq Require Import List Arith ZArith Bool.
From Verif Require Import Base.
Import ListNotations.

Section Split.
Context {A : Type}.

(** torch.split(size, dim): chunks of [size], the last one possibly smaller.
    [fuel] = length of the list. *)
Fixpoint chunks (fuel size : nat) (l : list A) : list (list A) :=
  match fuel with
  | O => []
  | S k => match l with [] => [] | _ => firstn size l :: chunks k size (skipn size l) end
  end.

(** split_consecutive.py 81-82; torch.split rejects size 0 on a non-empty
    dimension *)
Definition split_consecutive (n : nat) (l : list A) : result (list (list A)) :=
  if Nat.eqb (length l / n) 0 then Err else Ok (chunks (length l) (length l / n) l).
(** split_consecutive.py 84-94: torch.cat *)
Definition merge_consecutive (ls : list (list A)) : list A := concat ls.

(** l[i::n], equivalently l[mask] with mask = (arange % n == i):
    split_interleaved.py 48-51, 92-99 *)
Definition strided (n i : nat) (l : list A) : list A :=
  map snd (filter (fun p => Nat.eqb (fst p mod n) i) (combine (seq 0 (length l)) l)).
Definition split_interleaved (n : nat) (l : list A) : list (list A) := map (fun i => strided n i l) (seq 0 n).

(** split_interleaved.py 101-113: stack (equal lengths required) and
    rearrange "b f split -> b (f split)" *)
Fixpoint rows_of (w : nat) (ls : list (list A)) : list A :=
  match w with
  | O => []
  | S k => flat_map (firstn 1) ls ++ rows_of k (map (@tl A) ls)
  end.
Definition merge_interleaved (ls : list (list A)) : result (list A) :=
  match ls with
  | [] => Err
  | l0 :: _ => if forallb (fun l => Nat.eqb (length l) (length l0)) ls then Ok (rows_of (length l0) ls) else Err
  end.

(** split_by_index.py 165-176: index_select per group (indices validated) *)
Definition split_by_index (d : A) (groups : list (list Z)) (l : list A) : list (list A) :=
  map (map (fun i => nth (Z.to_nat i) l d)) groups.

Definition set_at (l : list A) (i : nat) (a : A) : list A := firstn i l ++ (if Nat.ltb i (length l) then [a] else []) ++ skipn (S i) l.

(** split_by_index.py 190-209: result = zeros; result[orig_idx] = concat[offset+pos] *)
Definition merge_by_index (d : A) (groups : list (list Z)) (F : nat) (ls : list (list A)) : list A :=
  fold_left (fun res ia => set_at res (Z.to_nat (fst ia)) (snd ia)) (combine (concat groups) (concat ls)) (repeat d F).
End Split.

(** split_by_index.py 101-115: inverse_order[orig_idx] = offset + pos *)
Definition inverse_order (groups : list (list Z)) (F : nat) : list nat :=
  fold_left (fun res ip => set_at res (Z.to_nat (fst ip)) (snd ip))
    (combine (concat groups) (seq 0 (length (concat groups)))) (repeat 0%nat F).
(** split_by_index.py 211-215 *)
Definition merge_tensors_by_index {A} (d : A) (groups : list (list Z)) (F : nat) (ls : list (list A)) : list A :=
  map (fun p => nth p (concat ls) d) (inverse_order groups F).

(** split_by_index.py 78-99 (set comparisons as mutual inclusion) *)
Definition zdup (l : list Z) : bool := negb (Nat.eqb (length l) (length (nodup Z.eq_dec l))).
Definition validate_indices (groups : list (list Z)) (F : nat) : bool :=
  let all := concat groups in
  forallb (fun i => (0 <=? i)%Z && (i <? Z.of_nat F)%Z) all && negb (zdup all)
  && forallb (fun k => existsb (Z.eqb (Z.of_nat k)) all) (seq 0 F).
Definition mk_split_by_index (groups : option (list (list Z))) (F : nat) : result (list (list Z)) :=
  match groups with None => Err | Some g => if validate_indices g F then Ok g else Err end.

(** ** feature_to_scope, one repetition: entry (j, i) for feature j of split i *)
(** numpy: [np.array(rows).reshape(w, n)] of [n] rows of length [w] *)
Definition reshaped {A} (d : A) (rows : list (list A)) (n j i : nat) : A := nth (j * n + i) (concat rows) d.

(** split_consecutive.py 52-63 (scopes[i*w : (i+1)*w]) *)
Definition fts_consecutive {A} (d : A) (n : nat) (scopes : list A) (j i : nat) : A :=
  let w := length scopes / n in
  reshaped d (map (fun i => firstn w (skipn (i * w) scopes)) (seq 0 n)) n j i.
(** split_interleaved.py 64-76 *)
Definition fts_interleaved {A} (d : A) (n : nat) (scopes : list A) (j i : nat) : A :=
  reshaped d (map (fun i => strided n i scopes) (seq 0 n)) n j i.
(** split_by_index.py 133-151: rows scopes[idx_group] padded with -1 ([None]) to
    the largest group, then transposed *)
Definition pad_row {A} (mx : nat) (row : list A) : list (option A) := map Some row ++ repeat None (mx - length row).
Definition fts_by_index {A} (d : A) (groups : list (list Z)) (scopes : list A) (j i : nat) : option A :=
  let mx := list_max (map (@length Z) groups) in
  let rows := map (fun g => pad_row mx (map (fun k => nth (Z.to_nat k) scopes d) g)) groups in
  nth j (nth i rows []) None.
