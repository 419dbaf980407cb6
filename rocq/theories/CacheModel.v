(** Model of the inference cache: spflow/utils/cache.py, and of log_likelihood as
    a @cached method on a DAG of module objects.

    Module objects are identified by their index in the list of all modules, in
    order of creation; inputs are created before the modules using them.  Weak
    references and locks are not modelled. *)
From Coq Require Import List Arith Bool.
From Verif Require Import Base ScopeModel CircuitModel.
Import ListNotations.
Local Open Scope R_scope.

(** A module object holds references to its input objects (cf. CircuitModel.module) *)
Inductive node :=
| NLeaf (l : leaf)
| NSum (c : nat) (co rr : nat) (lg : nat -> nat -> nat -> nat -> R)
| NCat (d2 : bool) (sc : scope) (cs : list nat)
| NProduct (c : nat).

Definition kids (n : node) : list nat :=
  match n with NLeaf _ => [] | NSum c _ _ _ => [c] | NCat _ _ cs => cs | NProduct c => [c] end.

Definition no_module : module := MCat true (mkScope [] []) [].
Definition no_node : node := NCat true (mkScope [] []) [].

(** the circuit (as a tree) that an object denotes, given the circuits of the
    earlier objects *)
Definition denote (ms : list module) (n : node) : module :=
  let at_ c := nth c ms no_module in
  match n with
  | NLeaf l => MLeaf l
  | NSum c co rr lg => MSum (at_ c) co rr lg
  | NCat d2 sc cs => MCat d2 sc (map at_ cs)
  | NProduct c => MProduct (at_ c)
  end.
Definition circuits (g : list node) : list module := fold_left (fun ms n => ms ++ [denote ms n]) g [].

Definition tensor := nat -> nat -> nat -> lval.

(** the body of log_likelihood of one object on row [x], given what the calls on
    its inputs returned (leaf.py 429-477, sum.py 264-280, cat.py 98-106,
    product.py 73-82) *)
Definition body (ms : list module) (x : row) (n : node) (vs : list tensor) : tensor :=
  let at_ c := nth c ms no_module in
  let v0 := hd (fun _ _ _ => NInf) vs in
  match n with
  | NLeaf l => leaf_score x l
  | NSum c co rr lg => fun f o r =>
      let k := channels (out_shape (at_ c)) in
      lse k (fun ci => ladd (v0 f ci (bidx (ll_reps (at_ c)) r)) (Fin (log_softmax k (fun i => lg f i o (bidx rr r)) ci)))
  | NCat d2 _ cs => catpick d2 (combine (map (fun c => out_shape (at_ c)) cs) vs)
  | NProduct c => fun f o r => ladds (features (out_shape (at_ c))) (fun f' => v0 f' o r)
  end.

(** cache.py 37, 50-52, 65: the dictionary of one method, keyed by object *)
Definition cache := list (nat * tensor).
Fixpoint get (c : cache) (i : nat) : option tensor :=
  match c with [] => None | (j, v) :: r => if Nat.eqb i j then Some v else get r i end.
Definition set (c : cache) (i : nat) (v : tensor) : cache := (i, v) :: c.

(** cache.py 116-133 around [body]; also returns the objects whose body was
    executed, in order.  [fuel] bounds the depth of the recursion. *)
Section Call.
Variables (g : list node) (ms : list module) (x : row).
Fixpoint call (fuel : nat) (c : cache) (i : nat) : tensor * cache * list nat :=
  match fuel with
  | O => (fun _ _ _ => NInf, c, [])
  | S k =>
      match get c i with
      | Some v => (v, c, [])
      | None =>
          let n := nth i g no_node in
          let '(vs, c', tr) :=
            (fix args (l : list nat) (c : cache) : list tensor * cache * list nat :=
               match l with
               | [] => ([], c, [])
               | j :: r => let '(v, c1, t1) := call k c j in
                           let '(vs, c2, t2) := args r c1 in (v :: vs, c2, t1 ++ t2)
               end) (kids n) c in
          let v := body ms x n vs in (v, set c' i v, tr ++ [i])
      end
  end.
End Call.

(** log_likelihood(x, cache=c) on object [i]; recursion depth at most i + 1 *)
Definition log_likelihood (g : list node) (x : row) (c : cache) (i : nat) : tensor * cache * list nat :=
  call g (circuits g) x (S i) c i.

(** inputs are created first *)
Definition ordered (g : list node) : Prop := forall i, (i < length g)%nat -> forall c, In c (kids (nth i g no_node)) -> (c < i)%nat.
