(** Model of spflow/learn/gradient_descent.py: the training loop as a state machine.

    Abstract: the model's parameters ([S]), the tensors of a batch ([X]), the forward
    pass with its loss (which may raise), the number of correct predictions and one
    optimiser step (backward + optimizer.step at a given learning rate; gradients are
    cleared first, 225, so a step depends on the current batch only).  Callbacks do not
    raise and do not touch the model.  Loggers are left out, except that an f-string
    reading an unbound local raises.  Python lists are modelled as heap objects, since
    callback_epoch receives the list itself. *)
From Coq Require Import List Arith ZArith Bool Reals.
From Verif Require Import Base.
Import ListNotations.
Local Open Scope R_scope.

(** a batch: a tensor, or a tuple/list of tensors *)
Inductive batch (X : Type) := Bare (x : X) | Tup (l : list X).
Arguments Bare {X}. Arguments Tup {X}.

(** 167-196 *)
Definition extract {X} (is_cls : bool) (b : batch X) : result (X * option X) :=
  if is_cls then match b with Tup [x; t] => Ok (x, Some t) | _ => Err end
  else match b with
       | Bare x => Ok (x, None)
       | Tup [x] => Ok (x, None)
       | Tup [x; _] => Ok (x, None)
       | _ => Err
       end.

(** 35-42: train_losses and val_losses are references into the heap *)
Record metrics := mkMetrics { train_losses : nat; val_losses : nat; train_correct : nat; train_total : nat;
  val_correct : nat; val_total : nat; training_steps : nat; validation_steps : nat }.
Definition heap := nat -> list R.
Definition hset (h : heap) (a : nat) (l : list R) : heap := fun b => if Nat.eqb b a then l else h b.
(** 54-58; [pt] = (correct predictions, number of targets) *)
Definition update_train_batch (m : metrics) (h : heap) (loss : R) (pt : option (nat * nat)) : metrics * heap :=
  let '(c, n) := match pt with Some p => p | None => (0, 0)%nat end in
  (mkMetrics (train_losses m) (val_losses m) (train_correct m + c) (train_total m + n) (val_correct m) (val_total m)
     (S (training_steps m)) (validation_steps m),
   hset h (train_losses m) (h (train_losses m) ++ [loss])).
(** 70-74 *)
Definition update_val_batch (m : metrics) (h : heap) (loss : R) (pt : option (nat * nat)) : metrics * heap :=
  let '(c, n) := match pt with Some p => p | None => (0, 0)%nat end in
  (mkMetrics (train_losses m) (val_losses m) (train_correct m) (train_total m) (val_correct m + c) (val_total m + n)
     (training_steps m) (S (validation_steps m)),
   hset h (val_losses m) (h (val_losses m) ++ [loss])).
(** 83, 92 *)
Definition get_train_accuracy (m : metrics) : R :=
  if Nat.ltb 0 (train_total m) then 100 * INR (train_correct m) / INR (train_total m) else 0.
Definition get_val_accuracy (m : metrics) : R :=
  if Nat.ltb 0 (val_total m) then 100 * INR (val_correct m) / INR (val_total m) else 0.
(** 96-101: list.clear() empties the objects in place *)
Definition reset_epoch_metrics (m : metrics) (h : heap) : metrics * heap :=
  (mkMetrics (train_losses m) (val_losses m) 0 0 0 0 (training_steps m) (validation_steps m),
   hset (hset h (train_losses m) []) (val_losses m) []).

(** what the callbacks see.  [EvBatch val loss step]: a call of callback_batch, [val]
    telling (the reader of the model, not the callback) where it happened;
    [EvEpoch losses epoch seen]: a call of callback_epoch with the list object
    [losses], whose contents at that moment are [seen] *)
Inductive event := EvBatch (val : bool) (loss : R) (step : nat) | EvEpoch (losses : nat) (epoch : nat) (seen : list R).

Section Loop.
  Variables (X S : Type).
  Record task := mkTask {
    is_cls : bool; is_classifier : bool;
    (** forward pass and loss: 229-235, 280-286 *)
    loss_of : S -> X -> option X -> result R;
    (** (predicted == targets).sum(), targets.size(0) *)
    hits : S -> X -> X -> nat; size : X -> nat;
    (** loss.backward(); optimizer.step() at a learning rate *)
    opt_step : R -> S -> X -> option X -> S;
    (** the learning rate after so many calls of scheduler.step() *)
    rate : nat -> R;
    cb_batch : bool; cb_epoch : bool; verbose : bool }.

  Record state := mkSt { params : S; mets : metrics; objs : heap; last_loss : option R; training : bool; sched : nat; log : list event }.
  (** an exception leaves the model as it is at that point *)
  Inductive outcome := Done (s : state) | Raised (s : state).
  Definition obind (o : outcome) (k : state -> outcome) : outcome := match o with Done s => k s | Raised s => Raised s end.

  Variable t : task.
  Definition pts (s : S) (x : X) (tg : option X) : option (nat * nat) :=
    if is_cls t then match tg with Some y => Some (hits t s x y, size t y) | None => None end else None.

  (** 199-245 *)
  Definition train_batch (b : batch X) (s : state) : outcome :=
    match extract (is_cls t) b with
    | Err => Raised s
    | Ok (x, tg) =>
        match loss_of t (params s) x tg with
        | Err => Raised s
        | Ok l =>
            let '(m, h) := update_train_batch (mets s) (objs s) l (pts (params s) x tg) in
            Done (mkSt (opt_step t (rate t (sched s)) (params s) x tg) m h (Some l) (training s) (sched s)
                    (log s ++ if cb_batch t then [EvBatch false l (training_steps m)] else []))
        end
    end.
  Fixpoint train_batches (bs : list (batch X)) (s : state) : outcome :=
    match bs with [] => Done s | b :: r => obind (train_batch b s) (train_batches r) end.

  (** 277-290 *)
  Definition val_batch (b : batch X) (s : state) : outcome :=
    match extract (is_cls t) b with
    | Err => Raised s
    | Ok (x, tg) =>
        match loss_of t (params s) x tg with
        | Err => Raised s
        | Ok l =>
            let '(m, h) := update_val_batch (mets s) (objs s) l (pts (params s) x tg) in
            Done (mkSt (params s) m h (last_loss s) (training s) (sched s)
                    (log s ++ if cb_batch t then [EvBatch true l (training_steps m)] else []))
        end
    end.
  Fixpoint val_batches (bs : list (batch X)) (s : state) : outcome :=
    match bs with [] => Done s | b :: r => obind (val_batch b s) (val_batches r) end.
  Definition set_mode (m : bool) (s : state) : state := mkSt (params s) (mets s) (objs s) (last_loss s) m (sched s) (log s).
  (** 271-294: without batches val_loss is unbound at the return (after model.train()) *)
  Definition run_validation (bs : list (batch X)) (s : state) : outcome :=
    obind (val_batches bs (set_mode false s)) (fun s1 =>
      match bs with [] => Raised (set_mode true s1) | _ => Done (set_mode true s1) end).

  (** 359-387: one epoch *)
  Definition epoch (data : list (batch X)) (val : option (list (batch X))) (e : nat) (s : state) : outcome :=
    let '(m, h) := reset_epoch_metrics (mets s) (objs s) in
    obind (train_batches data (mkSt (params s) m h (last_loss s) (training s) (sched s) (log s))) (fun s1 =>
    let s2 := mkSt (params s1) (mets s1) (objs s1) (last_loss s1) (training s1) (Datatypes.S (sched s1)) (log s1) in
    obind (match val with
           | Some vs => if Nat.eqb (e mod 10) 0 then run_validation vs s2 else Done s2
           | None => Done s2
           end) (fun s3 =>
    let s4 := if cb_epoch t
              then mkSt (params s3) (mets s3) (objs s3) (last_loss s3) (training s3) (sched s3)
                     (log s3 ++ [EvEpoch (train_losses (mets s3)) e (objs s3 (train_losses (mets s3)))])
              else s3 in
    if verbose t then match last_loss s4 with None => Raised s4 | Some _ => Done s4 end else Done s4)).
  Fixpoint epochs_loop (data : list (batch X)) (val : option (list (batch X))) (k e : nat) (s : state) : outcome :=
    match k with O => Done s | Datatypes.S k' => obind (epoch data val e s) (epochs_loop data val k' (Datatypes.S e)) end.

  (** 335-355: the fresh metrics are the heap objects 0 and 1 *)
  Definition start (p : S) (mode : bool) : state := mkSt p (mkMetrics 0 1 0 0 0 0 0 0) (fun _ => []) None mode 0 [].
  Definition train_gradient_descent (data : list (batch X)) (val : option (list (batch X))) (epochs : Z) (p : S) (mode : bool) : outcome :=
    if Z.leb epochs 0 then Raised (start p mode)
    else if is_cls t && negb (is_classifier t) then Raised (start p mode)
    else epochs_loop data val (Z.to_nat epochs) 0 (start p true).
End Loop.
Arguments Done {S}. Arguments Raised {S}.

(** 347-350: torch.optim.lr_scheduler.MultiStepLR with milestones
    [int(epochs * 0.5), int(epochs * 0.75)] and gamma 0.1; the scheduler's constructor
    performs the initial step at counter 0, and the factor is gamma to the number of
    milestones equal to the counter *)
Definition milestones (epochs : nat) : list nat := [(epochs / 2)%nat; (3 * epochs / 4)%nat].
Fixpoint multistep (lr gamma : R) (ms : list nat) (k : nat) : R :=
  match k with
  | O => lr * gamma ^ (count_occ Nat.eq_dec ms 0%nat)
  | Datatypes.S k' => multistep lr gamma ms k' * gamma ^ (count_occ Nat.eq_dec ms (Datatypes.S k'))
  end.
Definition default_rate (lr : R) (epochs : nat) : nat -> R := multistep lr (1 / 10) (milestones epochs).
