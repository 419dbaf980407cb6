(** Specification vocabulary for gradient-descent training (C221-C230). *)
From Coq Require Import List Arith ZArith Bool Reals.
From Verif Require Import Base GdModel.
Import ListNotations.
Local Open Scope R_scope.

(** the calls of the callbacks in a log *)
Definition train_calls (l : list event) : list (R * nat) := flat_map (fun v => match v with EvBatch false a s => [(a, s)] | _ => [] end) l.
Definition val_calls (l : list event) : list (R * nat) := flat_map (fun v => match v with EvBatch true a s => [(a, s)] | _ => [] end) l.
Definition epoch_calls (l : list event) : list (list R * nat) := flat_map (fun v => match v with EvEpoch _ e seen => [(seen, e)] | _ => [] end) l.
Definition epoch_objects (l : list event) : list nat := flat_map (fun v => match v with EvEpoch r _ _ => [r] | _ => [] end) l.

Section Ideal.
  Variables (X S : Type) (t : task X S) (data : list (batch X)) (p : S).
  (** apply [f] to the contents of a batch *)
  Definition on_batch {A} (f : X -> option X -> A) (d : A) (b : option (batch X)) : A :=
    match b with
    | Some b => match extract (is_cls X S t) b with Ok (x, tg) => f x tg | Err => d end
    | None => d
    end.
  Definition n := length data.
  (** plain stochastic gradient descent: the parameters after [k] steps, step [k]
      using batch [k mod n] at the learning rate of epoch [k / n] *)
  Fixpoint steps (k : nat) : S :=
    match k with
    | O => p
    | Datatypes.S k' => on_batch (opt_step X S t (rate X S t (k' / n)%nat) (steps k')) (steps k') (nth_error data (k' mod n))
    end.
  Definition num (r : result R) : R := match r with Ok a => a | Err => 0 end.
  Definition loss_on (s : S) (b : option (batch X)) : R := on_batch (fun x tg => num (loss_of X S t s x tg)) 0 b.
  (** the loss of step [k], before its update *)
  Definition loss_at (k : nat) : R := loss_on (steps k) (nth_error data (k mod n)).
  (** correct predictions and targets of step [k] *)
  Definition hits_at (k : nat) : nat :=
    on_batch (fun x tg => match tg with Some y => hits X S t (steps k) x y | None => 0%nat end) 0%nat (nth_error data (k mod n)).
  Definition size_at (k : nat) : nat :=
    on_batch (fun _ tg => match tg with Some y => size X S t y | None => 0%nat end) 0%nat (nth_error data (k mod n)).
  (** the losses of epoch [e] *)
  Definition epoch_losses (e : nat) : list R := map (fun j => loss_at (e * n + j)) (seq 0 n).
  (** the callbacks a validation after epoch [e] causes: the losses of the parameters
      reached by then, each with the number of training steps done *)
  Definition validation_at (val : option (list (batch X))) (e : nat) : list (R * nat) :=
    match val with
    | Some vs => if Nat.eqb (e mod 10) 0 then map (fun b => (loss_on (steps (Datatypes.S e * n)) (Some b), (Datatypes.S e * n)%nat)) vs else []
    | None => []
    end.
  (** a batch of the right shape on which the loss is defined *)
  Definition batch_ok (s : S) (b : batch X) : Prop :=
    exists x tg l, extract (is_cls X S t) b = Ok (x, tg) /\ loss_of X S t s x tg = Ok l.
  Definition epoch_ok (val : option (list (batch X))) (e : nat) : Prop :=
    (forall j b, nth_error data j = Some b -> batch_ok (steps (e * n + j)) b) /\
    (forall vs, val = Some vs -> (e mod 10 = 0)%nat -> vs <> [] /\ forall b, In b vs -> batch_ok (steps (Datatypes.S e * n)) b) /\
    (verbose X S t = true -> data <> []).
End Ideal.
