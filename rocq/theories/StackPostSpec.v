(** The class densities of RatSPN and Einet: what their posteriors are about. *)
From Coq Require Import List Arith Bool Reals.
From Verif Require Import Base ScopeModel CircuitModel CircuitSpec LayerModel FactorModel StackModel StackSpec StackEinSpec.
Import ListNotations.
Local Open Scope R_scope.
(** p(x | class q): the repetitions of root channel [q], mixed *)
Definition rat_class (c : rat_cfg) (p : rat_par) (k : split_kind) (m : module) (s : shape) (grp : nat -> nat -> nat -> bool) (x : row) (q : nat) : R :=
  let nf := length (query (scope_of m)) in
  bsum (ra_reps c) (fun r => softmax (ra_reps c) (rp_mix p 0%nat q) r *
    region (ra_depth c) (ra_outer c) k (rat_channels (ra_depth c) (channels (out_shape m)) (ra_root c) (ra_region c)) (rp_sum p)
      (group_prob nf grp (fun i ch r => pr (loglik m x i ch (bidx (repetitions s) r)))) (ra_depth c) 0 q r).
Definition rat_prior (c : rat_cfg) (p : rat_par) (q : nat) : R := softmax (ra_root c) (fun j => rp_root p 0%nat j 0%nat 0%nat) q.
Definition ein_class_density (c : ein_cfg) (p : ein_par) (m : module) (s : shape) (grp : nat -> nat -> nat -> bool) (x : row) (q : nat) : R :=
  let nf := length (query (scope_of m)) in
  bsum (ei_reps c) (fun r => softmax (ei_reps c) (ep_mix p 0%nat q) r *
    ein_class c p (channels (out_shape m)) nf
      (group_prob nf grp (fun i ch r => pr (loglik m x i ch (bidx (repetitions s) r)))) q r).
Definition ein_prior (c : ein_cfg) (p : ein_par) (q : nat) : R := softmax (ei_classes c) (fun j => ep_root p 0%nat j 0%nat 0%nat) q.
