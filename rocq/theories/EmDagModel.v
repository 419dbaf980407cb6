(** EM on circuits with shared modules: module.py 345-367 and sum.py 387-434 on
    the object lists of CacheModel.v.  Leaves without learnable parameters
    (leaf.py 380-382); repetitions are not broadcast in this file. *)
From Coq Require Import List Arith Bool.
From Verif Require Import Base ScopeModel CircuitModel CacheModel EmModel.
Import ListNotations.
Local Open Scope R_scope.

Section Dag.
Variables (x : nat -> row) (B : nat).
Variable ms : list module.   (* the circuits at the time of the forward pass *)

Definition at_ (c : nat) : module := nth c ms no_module.

(** one entry of log_weights + input_lls - module_lls (sum.py 421-426): the
    log-likelihoods are the cached ones, the log_weights the current [lg];
    [i] is the Sum object, [c] its input *)
Definition resp_now (i c : nat) (lg : nat -> nat -> nat -> nat -> R) (b f k o r : nat) : lval :=
  lsub (ladd (Fin (log_softmax (channels (out_shape (at_ c))) (fun j => lg f j o r) k)) (loglik (at_ c) (x b) f k r))
       (loglik (at_ i) (x b) f o r).

(** what autograd adds to the gradients of the inputs of object [i] *)
Fixpoint cat_contrib (d2 : bool) (off : nat) (cs : list nat) (G : grads) : list (nat * grads) :=
  match cs with
  | [] => []
  | c :: r => (c, fun b f k q => if d2 then G b f (off + k)%nat q else G b (off + f)%nat k q)
      :: cat_contrib d2 (off + (if d2 then channels (out_shape (at_ c)) else features (out_shape (at_ c)))) r G
  end.
Definition contrib (i : nat) (n : node) (G : grads) : list (nat * grads) :=
  match n with
  | NLeaf _ => []
  | NSum c co rr lg => [(c, fun b f k r => bsum co (fun o => G b f o r * pr (resp_now i c lg b f k o r)))]
  | NCat d2 _ cs => cat_contrib d2 0 cs G
  | NProduct c => [(c, fun b f k r => G b 0%nat k r)]
  end.
Definition add_grad (gs : nat -> grads) (p : nat * grads) : nat -> grads :=
  fun j => if Nat.eqb j (fst p) then fun b f c r => gs j b f c r + snd p b f c r else gs j.

(** backward pass over objects [k-1], ..., 0 (an object's gradient is complete
    once all objects created after it have been processed) *)
Fixpoint backward (g : list node) (k : nat) (gs : nat -> grads) : nat -> grads :=
  match k with
  | O => gs
  | S i => backward g i (fold_left add_grad (contrib i (nth i g no_node) (gs i)) gs)
  end.

(** sum.py 421-431 on object [i] *)
Definition new_log_weights (gs : nat -> grads) (i c : nat) (lg : nat -> nat -> nat -> nat -> R) (f k o r : nat) : R :=
  let e k := lse B (fun b => ladd (lfrom (gs i b f o r)) (resp_now i c lg b f k o r)) in
  finval (lsub (e k) (lse (channels (out_shape (at_ c))) e)).

Fixpoint set_nth (g : list node) (i : nat) (n : node) : list node :=
  match g, i with
  | [], _ => []
  | _ :: r, O => n :: r
  | a :: r, S j => a :: set_nth r j n
  end.

(** _expectation_maximization_step of object [i]; [g] is the current state of all
    objects.  Composite modules visit every entry of their input list (module.py
    365-367); nothing records that an object was already updated. *)
Fixpoint visit (gs : nat -> grads) (fuel : nat) (g : list node) (i : nat) : list node :=
  match fuel with
  | O => g
  | S k =>
      match nth i g no_node with
      | NLeaf _ => g
      | NSum c co rr lg => visit gs k (set_nth g i (NSum c co rr (new_log_weights gs i c lg))) c
      | NCat _ _ cs => fold_left (visit gs k) cs g
      | NProduct c => visit gs k g c
      end
  end.
End Dag.

(** one EM update of the circuit rooted at the last object *)
Definition em_update_dag (g : list node) (x : nat -> row) (B : nat) : list node :=
  let n := length g in
  let ms := circuits g in
  let gs := backward x ms g n (fun j => if Nat.eqb j (n - 1) then (fun _ _ _ _ => 1) else (fun _ _ _ _ => 0)) in
  visit x B ms gs n g (n - 1).
