(** Model of expectation maximisation: sum.py 387-434, module.py 345-372,
    leaf.py 363-405, learn/expectation_maximization.py 28-85.

    A step is modelled on circuits without shared modules (trees); for shared
    modules see EmDagModel.v.  Floats are reals.  [x b] is row [b] of the batch. *)
From Coq Require Import List Arith Bool.
From Verif Require Import Base ScopeModel CircuitModel.
Import ListNotations.
Local Open Scope R_scope.

(** a gradient tensor: row, feature, channel, repetition *)
Definition grads := nat -> nat -> nat -> nat -> R.

(** the real number in a finite log value (a −inf would make the new logits −inf
    or NaN; the theorems exclude it) *)
Definition finval (v : lval) : R := match v with Fin a => a | NInf => 0 end.

(** subtraction of a finite log value: [a - b] *)
Definition lsub (a b : lval) : lval :=
  match a, b with Fin x, Fin y => Fin (x - y) | _, _ => NInf end.

Section Step.
Variables (x : nat -> row) (B : nat).
(** what maximum_likelihood_estimation makes of a leaf, given its gradients
    (leaf.py 363-405); the identity for leaves without learnable parameters (380) *)
Variable U : leaf -> grads -> leaf.

(** exp(log_weights + input_lls - module_lls) at one entry: the derivative of the
    Sum's output (f,o,r) with respect to its input (f,i,.) computed by autograd
    through logsumexp (sum.py 264-280) *)
Definition resp (ch : module) (co rr : nat) lg (b f i o r : nat) : lval :=
  lsub (ladd (Fin (log_softmax (channels (out_shape ch)) (fun j => lg f j o (bidx rr r)) i))
             (loglik ch (x b) f i (bidx (ll_reps ch) r)))
       (loglik (MSum ch co rr lg) (x b) f o r).

(** sum.py 421-428: log_expectations after logsumexp over the batch and
    log_softmax over the input channels *)
Definition log_expect (ch : module) (co rr : nat) lg (G : grads) (f i o r : nat) : lval :=
  lse B (fun b => ladd (lfrom (G b f o r)) (resp ch co rr lg b f i o r)).
Definition em_logits (ch : module) (co rr : nat) lg (G : grads) (f i o r : nat) : lval :=
  lsub (log_expect ch co rr lg G f i o r)
       (lse (channels (out_shape ch)) (fun j => log_expect ch co rr lg G f j o r)).

(** autograd: gradient of the Sum's input; input repetitions are summed over when
    they were broadcast *)
Definition sum_child_grads (ch : module) (co rr : nat) lg (G : grads) : grads := fun b f i r' =>
  bsum (ll_reps (MSum ch co rr lg)) (fun r =>
    if Nat.eqb (bidx (ll_reps ch) r) r'
    then bsum co (fun o => G b f o r * pr (resp ch co rr lg b f i o r)) else 0).

(** _expectation_maximization_step.  [G] are the gradients of this module's
    log-likelihood tensor (retained at expectation_maximization.py 67-68).
    Err: the setter of log_weights raises when the new weights have another
    shape (sum.py 237), which happens when weights were broadcast against a
    larger number of input repetitions. *)
Fixpoint em_step (m : module) (G : grads) : result module :=
  match m with
  | MLeaf l => Ok (MLeaf (U l G))
  | MSum ch co rr lg =>
      if Nat.eqb (ll_reps m) rr then
        bind (em_step ch (sum_child_grads ch co rr lg G)) (fun ch' =>
        Ok (MSum ch' co rr (fun f i o r => finval (em_logits ch co rr lg G f i o r))))
      else Err
  | MCat d2 sc cs =>
      bind ((fix go (off : nat) (l : list module) : result (list module) :=
        match l with
        | [] => Ok []
        | c :: rest =>
            bind (em_step c (fun b f k r => if d2 then G b f (off + k)%nat r else G b (off + f)%nat k r)) (fun c' =>
            bind (go (off + (if d2 then channels (out_shape c) else features (out_shape c)))%nat rest) (fun rest' =>
            Ok (c' :: rest')))
        end) 0%nat cs) (fun cs' => Ok (MCat d2 sc cs'))
  | MProduct ch =>
      bind (em_step ch (fun b f c r => G b 0%nat c r)) (fun ch' => Ok (MProduct ch'))
  end.
End Step.

(** expectation_maximization.py 58-59: the sum of the whole log-likelihood tensor *)
Definition acc_ll (m : module) (x : nat -> row) (B : nat) : R :=
  bsum B (fun b => bsum (features (out_shape m)) (fun f => bsum (channels (out_shape m)) (fun c =>
    bsum (ll_reps m) (fun r => finval (loglik m (x b) f c r))))).

(** expectation_maximization.py 67-75: backward from the sum (gradient 1 for every
    entry of the root), then the recursive step *)
Definition em_update (U : leaf -> grads -> leaf) (m : module) (x : nat -> row) (B : nat) : result module :=
  em_step x B U m (fun _ _ _ _ => 1).

(** ** The driver: expectation_maximization.py 28-85. *)

(** a float: NaN, -inf or a number, and Python's [<=] on them *)
Inductive fl := FNan | FNInf | FFin (r : R).
Definition fle (a b : fl) : bool :=
  match a, b with
  | FNan, _ | _, FNan => false
  | FNInf, _ => true
  | FFin _, FNInf => false
  | FFin x, FFin y => if Rle_dec x y then true else false
  end.

Definition fadd (a b : fl) : fl :=
  match a, b with
  | FNan, _ | _, FNan => FNan
  | FNInf, _ | _, FNInf => FNInf
  | FFin x, FFin y => FFin (x + y)
  end.
(** [a - b]; -inf - (-inf) is NaN (a finite [a] minus -inf is +inf: does not occur
    below because a Sum's value is at least each of its weighted inputs) *)
Definition fsub (a b : fl) : fl :=
  match a, b with
  | FNan, _ | _, FNan | _, FNInf => FNan
  | FNInf, FFin _ => FNInf
  | FFin x, FFin y => FFin (x - y)
  end.
Definition of_lval (v : lval) : fl := match v with NInf => FNInf | Fin a => FFin a end.
Definition is_nan (a : fl) : bool := match a with FNan => true | _ => false end.
Definition to_lval (v : fl) : lval := match v with FFin a => Fin a | _ => NInf end.
(** torch.logsumexp propagates NaN *)
Definition flse (n : nat) (v : nat -> fl) : fl :=
  if existsb (fun i => is_nan (v i)) (seq 0 n) then FNan else of_lval (lse n (fun i => to_lval (v i))).

(** sum.py 421-428 in float arithmetic: the new log_weights of the Sum over [ch] *)
Definition log_expect_fl (x : nat -> row) (B : nat) (ch : module) (co rr : nat) lg (G : grads) (f i o r : nat) : fl :=
  flse B (fun b =>
    fsub (fadd (fadd (FFin (log_softmax (channels (out_shape ch)) (fun j => lg f j o (bidx rr r)) i))
                     (of_lval (lfrom (G b f o r))))
               (of_lval (loglik ch (x b) f i (bidx (ll_reps ch) r))))
         (of_lval (loglik (MSum ch co rr lg) (x b) f o r))).
Definition new_log_weights_fl (x : nat -> row) (B : nat) (ch : module) (co rr : nat) lg (G : grads) (f i o r : nat) : fl :=
  fsub (log_expect_fl x B ch co rr lg G f i o r)
       (flse (channels (out_shape ch)) (fun j => log_expect_fl x B ch co rr lg G f j o r)).

(** [ev s] is the average log-likelihood of state [s], [upd s] the state after
    the update (67-75).  [n] counts the remaining iterations of
    [range(max_steps)].  Returns ll_history and the final state. *)
Section Driver.
Variables (state : Type) (ev : state -> fl) (upd : state -> state).
Fixpoint em_loop (n : nat) (s : state) (prev : fl) : list fl * state :=
  match n with
  | O => ([], s)
  | S k => let a := ev s in
           let s' := upd s in
           if fle a prev then ([a], s')
           else let '(h, t) := em_loop k s' a in (a :: h, t)
  end.
(** torch.stack raises on an empty list (85).  [max_steps = -1] (50-51) runs
    [2^64 - 1] iterations: covered by taking [n] that large. *)
Definition em_driver (n : nat) (s : state) : result (list fl * state) :=
  match em_loop n s FNInf with ([], _) => Err | p => Ok p end.
End Driver.

(** ** The mini-batch driver: expectation_maximization.py 88-145, for one epoch
    over [batches]; [acc s b] is acc_ll of batch [b] in state [s], [size b] its
    number of rows.  Returns the epoch's entry of ll_history ([None] = NaN, 136)
    and the state. *)
Section Batched.
Variables (state batch : Type) (acc : state -> batch -> R) (size : batch -> nat) (upd : state -> batch -> state).
Fixpoint epoch_loop (bs : list batch) (s : state) (ll : R) (n : nat) : R * nat * state :=
  match bs with
  | [] => (ll, n, s)
  | b :: r => epoch_loop r (upd s b) (ll + acc s b) (n + size b)%nat
  end.
Definition epoch (bs : list batch) (s : state) : option R * state :=
  let '(ll, n, s') := epoch_loop bs s 0 0 in
  (match bs with [] => None | _ => if Nat.eqb n 0 then None else Some (ll / INR n) end, s').
Fixpoint em_batched (epochs : nat) (bs : list batch) (s : state) : list (option R) * state :=
  match epochs with
  | O => ([], s)
  | S k => let '(a, s1) := epoch bs s in let '(h, s2) := em_batched k bs s1 in (a :: h, s2)
  end.
End Batched.
