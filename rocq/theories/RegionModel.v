(** Model of spflow/meta/region_graph.py (Region, RegionGraph). *)
From Coq Require Import List ZArith Arith Bool.
From Verif Require Import Base ScopeModel.
Import ListNotations.

(** region_graph.py 9-20: a region is its scope and the list of its partitions.
    Simplification: a region is a finite value (an unfolded acyclic graph), so
    object identity is not represented; the code itself compares regions with
    [==] and [hash] only. *)
Inductive region := Region (rscope : scope) (children : list (list region)).
Definition r_scope (r : region) : scope := match r with Region s _ => s end.
Definition r_children (r : region) : list (list region) := match r with Region _ c => c end.

(** the dataclass [__eq__] (9): [(scope, children) == (scope, children)], with list
    and tuple equality element by element *)
Fixpoint region_eqb (r t : region) {struct r} : bool :=
  match r, t with
  | Region s ps, Region u qs =>
      scope_eqb s u &&
      (fix parts (l : list (list region)) (m : list (list region)) : bool :=
         match l, m with
         | [], [] => true
         | p :: l', q :: m' =>
             (fix one (l : list region) (m : list region) : bool :=
                match l, m with
                | [], [] => true
                | x :: l', y :: m' => region_eqb x y && one l' m'
                | _, _ => false
                end) p q && parts l' m'
         | _, _ => false
         end) ps qs
  end.

(** [unsafe_hash=True] with [children] excluded (9, 20): [hash((self.scope,))] *)
Definition region_hash (r : region) : Z := tuplehash [scope_hash (r_scope r)].

(** membership in a Python set: some stored element has the same hash and is equal *)
Definition same (r t : region) : bool := Z.eqb (region_hash r) (region_hash t) && region_eqb r t.
Definition in_set (r : region) (l : list region) : bool := existsb (same r) l.

(** 22-34 *)
Definition add_partition (r : region) (rs : list region) : result region :=
  bind (all_pairwise_disjoint (map r_scope rs)) (fun ok =>
  if negb ok then Err
  else bind (join_all (map r_scope rs)) (fun cs =>
  if negb (equal_query cs (r_scope r)) then Err
  else Ok (Region (r_scope r) (r_children r ++ [rs])))).

(** 62-77: [(visited, result)] is threaded through the recursion; [visited] is kept as
    a list of the elements added to the set. *)
Fixpoint dfs (r : region) (st : list region * list region) {struct r} : list region * list region :=
  match r with
  | Region s ps =>
      if in_set (Region s ps) (fst st) then st
      else
        let st0 := (Region s ps :: fst st, snd st) in
        let st1 := fold_left (fun st p => fold_left (fun st c => dfs c st) p st) ps st0 in
        (fst st1, snd st1 ++ [Region s ps])
  end.
Definition post_order (root : region) : list region := snd (dfs root ([], [])).

(** 47-60: [stack.pop()] takes the last element, children are appended in order; the
    stack is kept reversed here.  [fuel] bounds the number of loop iterations. *)
Fixpoint rsize (r : region) : nat :=
  match r with Region _ ps => S (list_sum (map (fun p => list_sum (map rsize p)) ps)) end.
Fixpoint regions_loop (fuel : nat) (stack visited : list region) : list region :=
  match fuel with
  | 0 => visited
  | S f =>
      match stack with
      | [] => visited
      | r :: rest =>
          if in_set r visited then regions_loop f rest visited
          else regions_loop f (rev (concat (r_children r)) ++ rest) (r :: visited)
      end
  end.
Definition regions (root : region) : list region := regions_loop (rsize root) [root] [].
