(** Model of spflow/utils/structure_stats.py over a heap of module objects. *)
From Coq Require Import List Arith Bool.
From Verif Require Import Base.
Import ListNotations.

(** What the traversal reads of a module object: the class name (a number; the classes
    Cat and RatSPN are distinguished), the [module] attribute of a Wrapper, [inputs]
    (module.py 43-50), [root_node], the own parameters (name, identity of the storage,
    number of elements), and the size of its scope.  [id] of an object is its index. *)
Inductive inputs := NoInputs | Many (l : list nat) | One (c : nat).
Record obj := mkObj { o_class : nat; o_wrapped : option nat; o_inputs : inputs; o_root : option nat;
                      o_params : list (nat * nat * nat); o_scope : nat }.
Definition CAT : nat := 0.
Definition RATSPN : nat := 1.
Definition heap := nat -> obj.

(** 84-137.  Simplification: every element of [inputs] is a Module; the [inputs] of a
    Cat is a ModuleList (cat.py). *)
Definition opt_list (o : option nat) : list nat := match o with Some c => [c] | None => [] end.
Definition children (G : heap) (n : nat) : list nat :=
  let o := G n in
  opt_list (o_wrapped o) ++
  match o_inputs o with
  | NoInputs => []
  | Many l => l
  | One c => if Nat.eqb (o_class (G c)) CAT
             then match o_inputs (G c) with Many l => l | One d => [d] | NoInputs => [] end
             else [c]
  end ++
  (if Nat.eqb (o_class o) RATSPN then opt_list (o_root o) else []).

(** 158-198: [visited] (most recent first), the number of edges, and the list of all
    child references, of which [in_degree] is the multiset of counts.  The stack is kept
    reversed.  [fuel] bounds the number of iterations. *)
Fixpoint walk (G : heap) (fuel : nat) (stack visited : list nat) (edges : nat) (refs : list nat)
  : list nat * nat * list nat :=
  match fuel with
  | 0 => (visited, edges, refs)
  | S f =>
      match stack with
      | [] => (visited, edges, refs)
      | n :: rest =>
          if existsb (Nat.eqb n) visited then walk G f rest visited edges refs
          else
            let cs := children G n in
            let vis' := n :: visited in
            walk G f (rev (filter (fun c => negb (existsb (Nat.eqb c) vis')) cs) ++ rest) vis'
              (edges + length cs) (refs ++ cs)
      end
  end.
(** enough iterations for a heap of [N] objects *)
Definition walk_fuel (G : heap) (N : nat) : nat := 1 + list_sum (map (fun n => length (children G n)) (seq 0 N)).

(** 206-220: the memo table is an association list, [visiting] the chain of open calls *)
Fixpoint find_memo (memo : list (nat * nat)) (n : nat) : option nat :=
  match memo with
  | [] => None
  | (m, d) :: r => if Nat.eqb m n then Some d else find_memo r n
  end.
Fixpoint depth_dfs (G : heap) (fuel : nat) (visiting : list nat) (memo : list (nat * nat)) (n : nat)
  : result (nat * list (nat * nat)) :=
  match fuel with
  | 0 => Err
  | S f =>
      match find_memo memo n with
      | Some d => Ok (d, memo)
      | None =>
          if existsb (Nat.eqb n) visiting then Err
          else
            bind ((fix go (cs : list nat) (best : nat) (memo : list (nat * nat)) : result (nat * list (nat * nat)) :=
                     match cs with
                     | [] => Ok (best, memo)
                     | c :: r => bind (depth_dfs G f (n :: visiting) memo c)
                                   (fun p => go r (Nat.max best (fst p)) (snd p))
                     end) (children G n) 0 memo)
              (fun p => Ok (1 + fst p, (n, 1 + fst p) :: snd p))
      end
  end.

Record stats := mkStats { s_nodes : nat; s_edges : nat; s_params : nat; s_types : nat -> nat;
                          s_ptypes : nat -> nat; s_depth : nat; s_scopes : nat -> nat;
                          s_dag : bool; s_shared : nat }.

(** 185-191: sizes of the parameters, one per storage, first occurrence kept *)
Fixpoint unique_numel (seen : list nat) (ps : list (nat * nat * nat)) : nat :=
  match ps with
  | [] => 0
  | (_, t, k) :: r => if existsb (Nat.eqb t) seen then unique_numel seen r else k + unique_numel (t :: seen) r
  end.
Definition count_class (G : heap) (t : nat) (l : list nat) : nat := length (filter (fun n => Nat.eqb (o_class (G n)) t) l).
Definition count_param (G : heap) (name : nat) (l : list nat) : nat :=
  length (filter (fun p => Nat.eqb (fst (fst p)) name) (flat_map (fun n => o_params (G n)) l)).
Definition count_scope (G : heap) (k : nat) (l : list nat) : nat := length (filter (fun n => Nat.eqb (o_scope (G n)) k) l).

(** 140-242.  The Counters are functions; min, max and mean of the scope sizes are
    functions of the histogram and omitted. *)
Definition get_structure_stats (G : heap) (N root : nat) : result stats :=
  let '(visited, edges, refs) := walk G (walk_fuel G N) [root] [] 0 [] in
  let order := rev visited in
  let shared := length (filter (fun n => Nat.ltb 1 (count_occ Nat.eq_dec refs n)) (nodup Nat.eq_dec refs)) in
  bind (depth_dfs G (S N) [] [] root) (fun p =>
  Ok (mkStats (length visited) edges (unique_numel [] (flat_map (fun n => o_params (G n)) order))
        (fun t => count_class G t order) (fun nm => count_param G nm order) (fst p)
        (fun k => count_scope G k order) (Nat.ltb 0 shared) shared)).
