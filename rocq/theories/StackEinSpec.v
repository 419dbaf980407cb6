(** The density an Einet is supposed to compute. *)
From Coq Require Import List Arith Bool Reals.
From Verif Require Import Base ScopeModel CircuitModel CircuitSpec LayerModel FactorModel StackModel StackSpec.
Import ListNotations.
Local Open Scope R_scope.

(** depth of the random grouping: 2^[ein_fdepth] groups *)
Definition ein_fdepth (c : ein_cfg) (nf : nat) : nat := if ei_topdown c then ei_depth c else Nat.log2 nf.
(** channels after level [l] *)
Definition ein_channels (c : ein_cfg) (C0 l : nat) : nat :=
  if Nat.eqb l 0 then C0 else if (ei_topdown c && Nat.eqb l (ei_depth c))%bool then ei_classes c else ei_sums c.
(** which parameters level [l] uses *)
Definition ein_index (c : ein_cfg) (l : nat) : nat := if ei_topdown c then (ei_depth c - l)%nat else l.
Definition is_linsum (c : ein_cfg) : bool := match ei_type c with Linsum => true | Einsum _ => false end.
(** the regions at the top of the layers: mixtures of the groups for depth zero *)
Definition ein_region (c : ein_cfg) (p : ein_par) (C0 : nat) (base : nat -> nat -> nat -> R) (f o r : nat) : R :=
  if Nat.eqb (ei_depth c) 0
  then bsum C0 (fun j => softmax C0 (fun i => ep_zero p f i o r) j * base f j r)
  else einode (is_linsum c) (ein_channels c C0) (fun l => ep_lin p (ein_index c l)) (fun l => ep_ein p (ein_index c l))
         base (ei_depth c) f o r.
(** class [k] of repetition [r]; bottom-up: the product of the regions that remain, mixed
    if the number of channels is not that of the classes *)
Definition ein_class (c : ein_cfg) (p : ein_par) (C0 nf : nat) (base : nat -> nat -> nat -> R) (k r : nat) : R :=
  if ei_topdown c then ein_region c p C0 base 0 k r
  else let all o := bprod (2 ^ (Nat.log2 nf - ei_depth c)) (fun f => ein_region c p C0 base f o r) in
       if Nat.eqb (ei_sums c) (ei_classes c) then all k
       else bsum (ei_sums c) (fun j => softmax (ei_sums c) (fun i => ep_class p 0 i k r) j * all j).
Definition ein_density (c : ein_cfg) (p : ein_par) (m : module) (s : shape) (grp : nat -> nat -> nat -> bool) (x : row) : R :=
  let nf := length (query (scope_of m)) in
  mixed (ei_classes c) (ei_reps c) (ep_mix p 0%nat) (fun j => ep_root p 0%nat j 0%nat 0%nat)
    (ein_class c p (channels (out_shape m)) nf
       (group_prob nf grp (fun i ch r => pr (loglik m x i ch (bidx (repetitions s) r))))).
(** the documented requirements on the arguments of Einet *)
Definition ein_fine (c : ein_cfg) (m : module) : Prop :=
  (1 <= ei_classes c)%nat /\ (1 <= ei_sums c)%nat /\ (1 <= ei_leaves c)%nat /\ (1 <= ei_reps c)%nat /\
  (2 ^ ei_depth c <= length (query (scope_of m)))%nat.
