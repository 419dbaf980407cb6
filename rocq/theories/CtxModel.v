(** Model of spflow/utils/sampling_context.py: SamplingContext as a mutable object.

    Methods are functions [obj -> bool * obj]: [true] = returned, [false] = raised,
    together with the state of the object afterwards, so that an exception after a
    partial update would be visible.  Both modes share the code: an entry of
    channel_index is an integer (is_differentiable=False) or a vector of channel
    weights (True), hence the type parameter [C]; likewise [P] for
    repetition_index. *)
From Coq Require Import List Arith ZArith Bool Reals.
From Verif Require Import Base.
Import ListNotations.

Inductive dtype := DBool | DInt | DFloat.
(** a tensor: shape, dtype, device, entries by (row, column); trailing dimensions
    are inside the entry *)
Record tensor (E : Type) := mkTensor { dims : list nat; dt : dtype; dev : nat; ent : nat -> nat -> E }.
Arguments mkTensor {E} _ _ _ _.
Arguments dims {E} _.
Arguments dt {E} _.
Arguments dev {E} _.
Arguments ent {E} _ _ _.

Definition dim {E} (t : tensor E) (k : nat) : nat := nth k (dims t) 0%nat.
Definition rank {E} (t : tensor E) : nat := length (dims t).
Definition dt_eqb (a b : dtype) : bool :=
  match a, b with DBool, DBool | DInt, DInt | DFloat, DFloat => true | _, _ => false end.
Definition with_dims {E} (d : list nat) (t : tensor E) : tensor E := mkTensor d (dt t) (dev t) (ent t).

(** the object; [o_device]: the attribute [device], possibly missing *)
Record obj (C P : Type) := mkObj {
  o_ci : tensor C; o_mask : tensor bool; o_rep : tensor P; o_device : option nat }.
Arguments mkObj {C P} _ _ _ _.
Arguments o_ci {C P} _.
Arguments o_mask {C P} _.
Arguments o_rep {C P} _.
Arguments o_device {C P} _.

Section Ctx.
Context {C P : Type}.
Variables (c0 : C) (p0 : P) (c1 : C) (p1 : P). (* zero / initial entries *)
Variable diff : bool.

(** 80-85 *)
Definition mask_ok (m : tensor bool) : bool := dt_eqb (dt m) DBool && Nat.eqb (rank m) 2.
(** 86-101 *)
Definition chan_ok (c : tensor C) : bool :=
  if diff then Nat.eqb (rank c) 3 && dt_eqb (dt c) DFloat else Nat.eqb (rank c) 2 && dt_eqb (dt c) DInt.
(** 102-122 *)
Definition rep_ok (p : tensor P) : bool :=
  if diff then Nat.eqb (rank p) 2 && dt_eqb (dt p) DFloat
  else (Nat.eqb (rank p) 1 || Nat.eqb (rank p) 2) && dt_eqb (dt p) DInt.
(** 124-151; conversion to torch.long keeps the values *)
Definition norm_rep (B d : nat) (p : tensor P) : result (tensor P) :=
  if negb (rep_ok p) then Err
  else if (negb diff && Nat.eqb (rank p) 2 && negb (Nat.eqb (dim p 1) 1))%bool then Err
  else
    let p' := if (negb diff && Nat.eqb (rank p) 2)%bool then with_dims [dim p 0] p else p in
    if negb (Nat.eqb (dim p' 0) B) then Err
    else if negb (Nat.eqb (dev p') d) then Err
    else Ok p'.
(** 153-187 *)
Definition norm_state (c : tensor C) (m : tensor bool) (p : option (tensor P)) : result (tensor C * tensor bool * option (tensor P)) :=
  if negb (chan_ok c) then Err
  else if negb (mask_ok m) then Err
  else if negb (Nat.eqb (dim m 0) (dim c 0) && Nat.eqb (dim m 1) (dim c 1)) then Err
  else if negb (Nat.eqb (dev c) (dev m)) then Err
  else match p with
       | None => Ok (c, m, None)
       | Some p => bind (norm_rep (dim c 0) (dev c) p) (fun p' => Ok (c, m, Some p'))
       end.

Definition method := obj C P -> bool * obj C P.
Definition raise_ : method := fun o => (false, o).
(** attribute assignments *)
Definition put_ci (c : tensor C) (o : obj C P) := mkObj c (o_mask o) (o_rep o) (o_device o).
Definition put_mask (m : tensor bool) (o : obj C P) := mkObj (o_ci o) m (o_rep o) (o_device o).
Definition put_rep (p : tensor P) (o : obj C P) := mkObj (o_ci o) (o_mask o) p (o_device o).
Definition put_device (d : nat) (o : obj C P) := mkObj (o_ci o) (o_mask o) (o_rep o) (Some d).

(** 320-336 *)
Definition update (c : tensor C) (m : tensor bool) (p : option (tensor P)) : method := fun o =>
  match norm_state c m p with
  | Err => raise_ o
  | Ok (c', m', p') =>
      let o1 := put_ci c' o in
      let o2 := put_mask m' o1 in
      (true, match p' with Some q => put_rep q o2 | None => o2 end)
  end.

(** 251-283: SamplingContext(num_samples=n, device=d) *)
Definition init_num (n d : nat) : result (obj C P) :=
  let c := mkTensor (if diff then [n; 1; 1] else [n; 1]) (if diff then DFloat else DInt) d (fun _ _ => c1) in
  let p := mkTensor (if diff then [n; 1] else [n]) (if diff then DFloat else DInt) d (fun _ _ => p1) in
  let m := mkTensor [n; 1] DBool d (fun _ _ => true) in
  bind (norm_state c m (Some p)) (fun t => let '(c', m', p') := t in
    Ok (mkObj c' m' (match p' with Some q => q | None => p end) None)).
(** 285-318: SamplingContext(channel_index=c, mask=m, repetition_index=p, device=d) *)
Definition init_routing (c : tensor C) (m : option (tensor bool)) (p : option (tensor P)) (d : option nat) : result (obj C P) :=
  if negb (chan_ok c) then Err
  else
    let m' := match m with Some m => m | None => mkTensor [dim c 0; dim c 1] DBool (dev c) (fun _ _ => true) end in
    let p' := match p with
              | Some p => p
              | None => mkTensor (if diff then [dim c 0; 1] else [dim c 0]) (if diff then DFloat else DInt) (dev c) (fun _ _ => p1)
              end in
    if match d with Some d => negb (Nat.eqb d (dev c)) | None => false end then Err
    else bind (norm_state c m' (Some p')) (fun t => let '(c2, m2, p2) := t in
           Ok (mkObj c2 m2 (match p2 with Some q => q | None => p' end) (Some (dev c)))).

(** 343-369: ctx.channel_index = c *)
Definition set_channel_index (c : tensor C) : method := fun o =>
  if negb (chan_ok c) then raise_ o
  else if negb (Nat.eqb (dev c) (dev (o_mask o))) then raise_ o
  else if negb (Nat.eqb (dim c 0) (dim (o_mask o) 0)) then raise_ o
  else if negb (Nat.eqb (dim c 0) (dim (o_rep o) 0)) then raise_ o
  else if negb (Nat.eqb (dev c) (dev (o_rep o))) then raise_ o
  else (true, put_device (dev c) (put_ci c o)).
(** 375-390: ctx.mask = m *)
Definition set_mask (m : tensor bool) : method := fun o =>
  if negb (mask_ok m) then raise_ o
  else if negb (Nat.eqb (dev m) (dev (o_ci o))) then raise_ o
  else if negb (Nat.eqb (dim m 0) (dim (o_ci o) 0)) then raise_ o
  else (true, put_device (dev m) (put_mask m o)).
(** 396-408: ctx.repetition_index = p *)
Definition set_repetition_index (p : option (tensor P)) : method := fun o =>
  match p with
  | None => raise_ o
  | Some p => match norm_rep (dim (o_ci o) 0) (dev (o_ci o)) p with
              | Err => raise_ o
              | Ok p' => (true, put_rep p' o)
              end
  end.

(** 442-475: a new object; clones are not distinguished from their originals.
    copy (417-428) is the case c = channel_index, m = mask. *)
Definition with_routing (c : tensor C) (m : tensor bool) (o : obj C P) : result (obj C P) :=
  bind (norm_state c m (Some (o_rep o))) (fun t => let '(c', m', p') := t in
    Ok (mkObj c' m' (match p' with Some q => q | None => o_rep o end) (Some (dev c')))).
Definition copy (o : obj C P) : result (obj C P) := with_routing (o_ci o) (o_mask o) o.

(** torch.Tensor.expand(-1, n[, -1]) *)
Definition expand {E} (n : nat) (t : tensor E) : result (tensor E) :=
  match dims t with
  | b :: w :: rest =>
      if Nat.eqb w n then Ok t
      else if Nat.eqb w 1 then Ok (mkTensor (b :: n :: rest) (dt t) (dev t) (fun i _ => ent t i 0%nat))
      else Err
  | _ => Err
  end.
(** 493-532 *)
Definition broadcast_feature_width (n : nat) (allow_from_one : bool) : method := fun o =>
  let cur := dim (o_ci o) 1 in
  if Nat.eqb cur n then (true, o)
  else if (allow_from_one && Nat.eqb cur 1)%bool then
    match expand n (o_ci o), expand n (o_mask o) with
    | Ok c, Ok m => update c m (Some (o_rep o)) o
    | _, _ => raise_ o
    end
  else raise_ o.

(** torch.Tensor.repeat(1, n[, 1]) *)
Definition repeat_cols {E} (n : nat) (t : tensor E) : tensor E :=
  match dims t with
  | b :: w :: rest => mkTensor (b :: (w * n)%nat :: rest) (dt t) (dev t) (fun i j => ent t i (j mod w)%nat)
  | _ => t
  end.
(** 534-574 *)
Definition repeat_split_feature_width (splits n : nat) : method := fun o =>
  if Nat.ltb splits 1 then raise_ o
  else
    let cur := dim (o_ci o) 1 in
    if Nat.eqb cur n then (true, o)
    else if negb (Nat.eqb (n mod splits) 0) then raise_ o
    else if negb (Nat.eqb cur (n / splits)) then raise_ o
    else update (repeat_cols splits (o_ci o)) (repeat_cols splits (o_mask o)) (Some (o_rep o)) o.

(** Python sorted() on integers *)
Fixpoint insert (x : Z) (l : list Z) : list Z :=
  match l with [] => [x] | y :: r => if Z.leb x y then x :: l else y :: insert x r end.
Definition isort (l : list Z) : list Z := fold_right insert [] l.
Fixpoint zlist_eqb (a b : list Z) : bool :=
  match a, b with
  | [], [] => true
  | x :: a', y :: b' => Z.eqb x y && zlist_eqb a' b'
  | _, _ => false
  end.
Definition zrange (n : nat) : list Z := map Z.of_nat (seq 0 n).
(** position of [v] in a group (the last one wins; entries are distinct) *)
Fixpoint index_of (v : Z) (l : list Z) : option nat :=
  match l with
  | [] => None
  | x :: r => match index_of v r with Some k => Some (S k) | None => if Z.eqb x v then Some 0%nat else None end
  end.
(** out[:, dest] = src for one group (617-623); the width of [src] must be that of
    the group or 1 *)
Definition put_cols {E} (src : tensor E) (g : list Z) (out : tensor E) : result (tensor E) :=
  let w := dim src 1 in
  if (Nat.eqb w (length g) || Nat.eqb w 1)%bool
  then Ok (mkTensor (dims out) (dt out) (dev out) (fun i j =>
         match index_of (Z.of_nat j) g with
         | Some k => ent src i (if Nat.eqb w 1 then 0%nat else k)
         | None => ent out i j
         end))
  else Err.
Fixpoint put_groups {E} (src : tensor E) (gs : list (list Z)) (out : tensor E) : result (tensor E) :=
  match gs with [] => Ok out | g :: r => bind (put_cols src g out) (put_groups src r) end.
(** new_zeros with [n] columns (610-616) *)
Definition zeros_like {E} (z : E) (n : nat) (t : tensor E) : tensor E :=
  match dims t with
  | b :: w :: rest => mkTensor (b :: n :: rest) (dt t) (dev t) (fun _ _ => z)
  | _ => t
  end.
(** 576-628 *)
Definition scatter_split_groups (gs : list (list Z)) (n : nat) : method := fun o =>
  let cur := dim (o_ci o) 1 in
  if Nat.eqb cur n then (true, o)
  else if negb (zlist_eqb (isort (concat gs)) (zrange n)) then raise_ o
  else if existsb (fun g => negb (Nat.eqb (length g) cur)) gs then raise_ o
  else match put_groups (o_ci o) gs (zeros_like c0 n (o_ci o)), put_groups (o_mask o) gs (zeros_like false n (o_mask o)) with
       | Ok c, Ok m => update c m (Some (o_rep o)) o
       | _, _ => raise_ o
       end.

(** 862-892 *)
Definition update_channel_index_strict (c : tensor C) : method := fun o =>
  if negb (chan_ok c) then raise_ o
  else if negb (Nat.eqb (dev c) (dev (o_mask o))) then raise_ o
  else if negb (Nat.eqb (dim c 0) (dim (o_mask o) 0)) then raise_ o
  else if negb (Nat.eqb (dim c 1) (dim (o_mask o) 1)) then raise_ o
  else set_channel_index c o.

(** 630-652: one (start, end) range *)
Definition slice_cols {E} (start stop : nat) (t : tensor E) : tensor E :=
  match dims t with
  | b :: w :: rest => mkTensor (b :: (stop - start)%nat :: rest) (dt t) (dev t) (fun i j => ent t i (start + j)%nat)
  | _ => t
  end.
Fixpoint slice_feature_ranges (rs : list (Z * Z)) (o : obj C P) : result (list (tensor C * tensor bool)) :=
  match rs with
  | [] => Ok []
  | (a, b) :: r =>
      if ((a <? 0)%Z || (b <? a)%Z || (Z.of_nat (dim (o_ci o) 1) <? b)%Z)%bool then Err
      else bind (slice_feature_ranges r o) (fun l =>
             Ok ((slice_cols (Z.to_nat a) (Z.to_nat b) (o_ci o), slice_cols (Z.to_nat a) (Z.to_nat b) (o_mask o)) :: l))
  end.

(** validate_sampling_context 744-779, 804-835: the checks on shapes.  [None]: the
    argument was not given. *)
Definition validate_shapes (num_samples : option nat) (widths : list nat) (num_repetitions : option nat) (o : obj C P) : bool :=
  chan_ok (o_ci o)
  && (Nat.eqb (rank (o_mask o)) 2 && Nat.eqb (dim (o_mask o) 0) (dim (o_ci o) 0) && Nat.eqb (dim (o_mask o) 1) (dim (o_ci o) 1))
  && mask_ok (o_mask o) && Nat.eqb (dev (o_ci o)) (dev (o_mask o))
  && match num_samples with Some n => Nat.eqb (dim (o_ci o) 0) n | None => true end
  && match widths with [] => true | _ => existsb (Nat.eqb (dim (o_ci o) 1)) widths end
  && match num_repetitions with
     | None => true
     | Some R =>
         Nat.leb 1 R && rep_ok (o_rep o) && Nat.eqb (dev (o_rep o)) (dev (o_ci o))
         && (if diff then Nat.eqb (dim (o_rep o) 1) R else Nat.eqb (rank (o_rep o)) 1)
         && Nat.eqb (dim (o_rep o) 0) (match num_samples with Some n => n | None => dim (o_ci o) 0 end)
     end.

(** the public operations that change a context or derive one from it *)
Inductive op :=
| OpUpdate (c : tensor C) (m : tensor bool) (p : option (tensor P))
| OpSetRep (p : option (tensor P))
| OpBroadcast (n : nat) (one : bool)
| OpRepeat (splits n : nat)
| OpScatter (gs : list (list Z)) (n : nat)
| OpStrict (c : tensor C)
| OpSetChannel (c : tensor C)
| OpSetMask (m : tensor bool).
Definition run (x : op) : method :=
  match x with
  | OpUpdate c m p => update c m p
  | OpSetRep p => set_repetition_index p
  | OpBroadcast n one => broadcast_feature_width n one
  | OpRepeat s n => repeat_split_feature_width s n
  | OpScatter gs n => scatter_split_groups gs n
  | OpStrict c => update_channel_index_strict c
  | OpSetChannel c => set_channel_index c
  | OpSetMask m => set_mask m
  end.
(** assignment to the properties channel_index and mask *)
Definition is_setter (x : op) : bool := match x with OpSetChannel _ | OpSetMask _ => true | _ => false end.

(** contexts obtainable from the constructor by operations satisfying [ok] *)
Inductive reach (ok : op -> bool) : obj C P -> Prop :=
| r_num n d o : init_num n d = Ok o -> reach ok o
| r_init c m p d o : init_routing c m p d = Ok o -> reach ok o
| r_op x o b o' : reach ok o -> ok x = true -> run x o = (b, o') -> reach ok o'
| r_routing c m o o' : reach ok o -> with_routing c m o = Ok o' -> reach ok o'.
End Ctx.
Arguments op : clear implicits.

(** ** route_channel_offsets, is_differentiable=False (671-708) *)
Fixpoint offsets (off : Z) (counts : list Z) : list (Z * Z) :=
  match counts with [] => [] | n :: r => (off, (off + n)%Z) :: offsets (off + n)%Z r end.
Definition zsum (l : list Z) : Z := fold_right Z.add 0%Z l.
(** some active entry of the (B, F) matrix is invalid *)
Definition any_active (B F : nat) (mask : nat -> nat -> bool) (bad : nat -> nat -> bool) : bool :=
  existsb (fun b => existsb (fun f => mask b f && bad b f)%bool (seq 0 F)) (seq 0 B).
Definition route_int (counts : list Z) (B F : nat) (ci : nat -> nat -> Z) (mask : nat -> nat -> bool) :
    result (list ((nat -> nat -> Z) * (nat -> nat -> bool))) :=
  if existsb (fun n => (n <? 1)%Z) counts then Err
  else if any_active B F mask (fun b f => (ci b f <? 0)%Z || (zsum counts <=? ci b f)%Z) then Err
  else Ok (map (fun se : Z * Z =>
         let inr b f := ((fst se <=? ci b f)%Z && (ci b f <? snd se)%Z)%bool in
         ((fun b f => if inr b f then (ci b f - fst se)%Z else 0%Z), (fun b f => inr b f && mask b f)%bool))
       (offsets 0 counts)).

Local Open Scope R_scope.
(** ** is_differentiable=True (710-732); [w b f k]: weight of channel [k]; [K] the
    size of the channel axis; [eps] = torch.finfo(...).eps *)
Definition route_soft (eps : R) (counts : list nat) (K : nat) (w : nat -> nat -> nat -> R) (mask : nat -> nat -> bool) :
    result (list ((nat -> nat -> nat -> R) * (nat -> nat -> bool))) :=
  if existsb (fun n => Nat.ltb n 1) counts then Err
  else if negb (Nat.eqb K (fold_right Nat.add 0%nat counts)) then Err
  else Ok ((fix go (off : nat) (l : list nat) :=
      match l with
      | [] => []
      | n :: r =>
          let mass b f := bsum n (fun k => w b f (off + k)%nat) in
          ((fun b f k => if Rlt_dec 0 (mass b f) then w b f (off + k)%nat / Rmax (mass b f) eps else 0),
           (fun b f => (if Rlt_dec 0 (mass b f) then true else false) && mask b f)%bool) :: go (off + n)%nat r
      end) 0%nat counts).

(** ** index_tensor (1084-1144) at one position: gather, and sum(tensor * one_hot).
    Products follow IEEE: 0 * -inf = NaN. *)
Inductive flt := VNan | VNInf | VFin (r : R).
Definition gather (n : nat) (t : nat -> flt) (i : nat) : result flt := if Nat.ltb i n then Ok (t i) else Err.
Definition fmul (a : flt) (w : R) : flt :=
  match a with
  | VNan => VNan
  | VFin r => VFin (r * w)
  | VNInf => if Req_EM_T w 0 then VNan else VNInf (* w > 0 *)
  end.
Definition fplus (a b : flt) : flt :=
  match a, b with
  | VNan, _ | _, VNan => VNan
  | VNInf, _ | _, VNInf => VNInf
  | VFin x, VFin y => VFin (x + y)
  end.
Fixpoint fsum (n : nat) (t : nat -> flt) : flt := match n with O => VFin 0 | S k => fplus (fsum k t) (t k) end.
Definition index_one_hot (n : nat) (t : nat -> flt) (w : nat -> R) : flt := fsum n (fun i => fmul (t i) (w i)).
Definition one_hot (i : nat) : nat -> R := fun k => if Nat.eqb k i then 1 else 0.

(** ** SIMPLE (1011-1053), forward value at one position: [g] are the perturbed
    logits (base), [y] the tempered softmax; [amax] = argmax of softmax(base) *)
Fixpoint rargmax (n : nat) (g : nat -> R) : nat :=
  match n with
  | O => O
  | S k => let b := rargmax k g in if Nat.eqb k 0 then 0%nat else if Rlt_dec (g b) (g k) then k else b
  end.
Definition simple_value (n : nat) (base y : nat -> R) (k : nat) : R :=
  let soft i := exp (base i) / bsum n (fun j => exp (base j)) in
  (one_hot (rargmax n soft) k - y k) + y k.
