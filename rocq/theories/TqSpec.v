(** What a TensorizedQPC means: a recursion over the region graph, without folds, padding,
    layers or meshgrids. *)
From Coq Require Import List Arith Bool Reals ZArith.
From Verif Require Import Base ScopeModel RegionModel RegionSpec CircuitModel LayerModel PicModel PicSpec TqModel.
Import ListNotations.
Local Open Scope R_scope.

(** the regions of height [h], in post order *)
Definition level (root : region) (h : nat) : list region := filter (fun r => Nat.eqb (rdepth r) h) (post_order root).
Fixpoint before (r : region) (l : list region) : list region :=
  match l with [] => [] | t :: rest => if same r t then [] else t :: before r rest end.
(** number of the region's first partition among the partitions of its height *)
Definition part_slot (root r : region) : nat := list_sum (map (fun t => length (r_children t)) (before r (level root (rdepth r)))).
(** number of the region among the regions of its height with several partitions *)
Definition several (r : region) : bool := Nat.ltb 1 (length (r_children r)).
Definition mix_slot (root r : region) : nat := length (filter several (before r (level root (rdepth r)))).
(** number of the heights below [h] with such regions *)
Definition mix_height (root : region) (h : nat) : nat := length (filter (fun i => existsb several (level root i)) (seq 1 (h - 1))).
(** Tucker layers: all partitions of the height are binary and CP is not requested *)
Definition all_binary (root : region) (h : nat) : bool := forallb (fun r => forallb (fun p => Nat.eqb (length p) 2) (r_children r)) (level root h).
Definition tucker_at (root : region) (cls : layer_cls) (h : nat) : bool :=
  match cls with ClsCp => false | _ => all_binary root h end.
(** largest number of regions in a partition of the height *)
Definition max_arity (root : region) (h : nat) : nat := list_max (flat_map (fun r => map (@length region) (r_children r)) (level root h)).

(** weights: [tk]/[cp] of a partition (height, slot), [mw] of the alternatives of a region *)
Record weights := mkWts {
  w_tk : nat -> nat -> nat -> nat -> nat -> R;         (* height, slot, left, right, unit *)
  w_cp : nat -> nat -> nat -> nat -> nat -> R;         (* height, slot, child, input, unit *)
  w_mix : nat -> nat -> nat -> nat -> nat -> R }.      (* layer, slot, alternatives, alternative, unit *)

Section Val.
Variable root : region.
Variable cls : layer_cls.
Variable K : nat.
Variable W : weights.
Variable leaf : scope -> nat -> R.
(** value of one partition, from the values of its regions *)
Definition part_value (h slot : nat) (vs : list (nat -> R)) (o : nat) : R :=
  if tucker_at root cls h
  then bsum K (fun i => bsum K (fun j => w_tk W h slot i j o * (nth 0 vs (fun _ => 0) i * nth 1 vs (fun _ => 0) j)))
  else bprod (length vs) (fun c => bsum K (fun i => w_cp W h slot c i o * nth c vs (fun _ => 0) i)).
Definition region_value (r : region) (pv : list (nat -> R)) : nat -> R :=
  match pv with
  | [v] => v
  | _ => fun k => bsum (length pv) (fun j => w_mix W (mix_height root (rdepth r)) (mix_slot root r) (length pv) j k * nth j pv (fun _ => 0) k)
  end.
(** value of the units of a region *)
Fixpoint tval (r : region) : nat -> R :=
  match r with
  | Region s [] => leaf s
  | Region s ps =>
      region_value r ((fix parts (j : nat) (l : list (list region)) : list (nat -> R) :=
        match l with [] => [] | p :: l' => part_value (rdepth r) (part_slot root r + j) (map tval p) :: parts (S j) l' end) 0%nat ps)
  end.
End Val.

(** the quadrature-normalised weights of the networks: unit [o] of a region stands for its
    latent at quadrature point [o]; the root has no latent *)
Definition latent_at (q : rule) (is_root : bool) (o : nat) : list R := if is_root then [] else [nth o (pts q) 0].
Definition normalise (q : rule) (F : R -> R) (i : nat) : R :=
  F (nth i (pts q) 0) * nth i (wts q) 0 / bsum (length (pts q)) (fun j => F (nth j (pts q) 0) * nth j (wts q) 0).
Definition normalise2 (q : rule) (F : R -> R -> R) (i j : nat) : R :=
  F (nth i (pts q) 0) (nth j (pts q) 0) * (nth i (wts q) 0 * nth j (wts q) 0) /
  bsum (length (pts q)) (fun a => bsum (length (pts q)) (fun b => F (nth a (pts q) 0) (nth b (pts q) 0) * (nth a (wts q) 0 * nth b (wts q) 0))).
Definition qpc_weights (q : rule) (eps : R) (L : nat -> nat -> list R -> R) (mlog : nat -> nat -> nat -> nat -> R) (root : region) : weights :=
  let top h := (Nat.eqb h (rdepth root) || Nat.eqb (length (pts q)) 1)%bool in
  mkWts
    (fun h slot i j o => if top h
       then normalise2 q (fun zi zj => L (h - 1)%nat slot [zi; zj] + eps) i j
       else normalise2 q (fun zi zj => L (h - 1)%nat slot [nth o (pts q) 0; zj; zi] + eps) i j)
    (fun h slot c i o => normalise q (fun zi => L (h - 1)%nat (slot * max_arity root h + c)%nat (latent_at q (top h) o ++ [zi]) + eps) i)
    (fun m slot n j k => exp (mlog m slot j k) / bsum n (fun j' => exp (mlog m slot j' k))).

(** every leaf region has exactly one variable *)
Definition univariate (root : region) : Prop := forall r, reach root r -> r_children r = [] -> length (query (r_scope r)) = 1%nat.
(** variables of the circuit are numbered in increasing order *)
Definition var_rank (root : region) (v : nat) : nat := length (filter (fun u => Nat.ltb u v) (query (r_scope root))).
Definition leaf_value (root : region) (lf : nat -> nat -> R -> R) (x : nat -> R) (s : scope) (k : nat) : R :=
  let v := hd 0%nat (query s) in exp (lf (var_rank root v) k (x v)).
