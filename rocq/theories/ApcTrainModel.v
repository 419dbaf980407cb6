(** Model of the APC objective (spflow/zoo/apc/model.py 112-229) and of the
    training helpers (spflow/zoo/apc/train.py 28-194).

    Randomness (posterior and decoder samples) is a fixed function of the sample:
    the encoder's answer for a row is [enc x].  Automatic differentiation and the
    optimizer are one abstract parameter update per batch. *)
From Coq Require Import List Arith Bool Reals.
From Verif Require Import Base.
Import ListNotations.
Local Open Scope R_scope.

(** the four scalar entries of loss_components' dictionary *)
Record metrics := mkMetrics { m_rec : R; m_kld : R; m_nll : R; m_total : R }.

(** ** the objective *)
Section Objective.
  Variables X Z : Type.

  (** config.py 11-57 *)
  Record apc_config := mkCfg {
    w_rec : R; w_kld : R; w_nll : R;
    rec_bce : bool;               (* rec_loss = "bce"; otherwise "mse" *)
    decode_mpe : bool;            (* train_decode_mpe *)
    nll_joint : bool              (* nll_x_and_z *)
  }.

  (** The encoder's answer for one row: the latent sample and, when it can give
      statistics, the row of [kld_per_sample] and of [decode_latent]. *)
  Record encoded := mkEnc { e_z : Z; e_stats : option (R * Z) }.

  (** the model: encoder, decoder (flattened output), likelihoods, flattening *)
  Record apc_net := mkNet {
    enc : X -> encoded; dec : Z -> list R; flat : X -> list R;
    joint_ll : X -> Z -> R; marg_ll : X -> R
  }.

  (** F.mse_loss on one row, summed *)
  Fixpoint sq_err (a b : list R) : R :=
    match a, b with u :: a', v :: b' => (u - v) ^ 2 + sq_err a' b' | _, _ => 0 end.
  (** F.binary_cross_entropy on one row, summed: torch clamps the logarithms at -100 *)
  Definition clog (p : R) : R := if Rle_dec p 0 then -100 else Rmax (ln p) (-100).
  Fixpoint bce_err (p t : list R) : R :=
    match p, t with u :: p', v :: t' => - (v * clog u + (1 - v) * clog (1 - u)) + bce_err p' t' | _, _ => 0 end.
  (** torch rejects an input or a target outside [0, 1] *)
  Definition in01 (l : list R) : bool := forallb (fun u => if Rle_dec 0 u then if Rle_dec u 1 then true else false else false) l.

  Definition pos (w : R) : bool := if Rlt_dec 0 w then true else false.

  (** 122-143, before the division by the batch size; 131-134 shape mismatch *)
  Fixpoint rec_sum (c : apc_config) (xs : list (list R)) (ys : list (list R)) : result R :=
    match xs, ys with
    | [], [] => Ok 0
    | x :: xs', y :: ys' =>
        if negb (Nat.eqb (length x) (length y)) then Err
        else if (rec_bce c && negb (in01 x && in01 y))%bool then Err
        else match rec_sum c xs' ys' with
             | Ok s => Ok ((if rec_bce c then bce_err y x else sq_err y x) + s)
             | Err => Err
             end
    | _, _ => Err
    end.

  (** kld_per_sample of the batch (144-159); [None] when the encoder has none *)
  Fixpoint all_stats (es : list encoded) : option (list (R * Z)) :=
    match es with
    | [] => Some []
    | e :: r => match e_stats e, all_stats r with Some s, Some t => Some (s :: t) | _, _ => None end
    end.

  (** 167-229.  The mean over an empty batch is NaN in the code; here [Err]. *)
  Definition loss_components (c : apc_config) (n : apc_net) (xs : list X) : result metrics :=
    if Nat.eqb (length xs) 0 then Err else
    let B := INR (length xs) in
    let need_stats := (pos (w_kld c) || decode_mpe c)%bool in
    let need_z := (pos (w_rec c) || pos (w_nll c))%bool in
    let es := map (enc n) xs in
    let zs := map e_z es in
    match (if need_stats then match all_stats es with Some s => Ok (Some s) | None => Err end else Ok None) with
    | Err => Err
    | Ok stats =>
        match (if pos (w_rec c)
               then let zd := if decode_mpe c then match stats with Some s => map snd s | None => [] end else zs in
                    match rec_sum c (map (flat n) xs) (map (dec n) zd) with Ok s => Ok (s / B) | Err => Err end
               else Ok 0) with
        | Err => Err
        | Ok rec =>
            let nll := if pos (w_nll c)
                       then - lsumR (if nll_joint c then map (fun p => joint_ll n (fst p) (snd p)) (combine xs zs)
                                     else map (marg_ll n) xs) / B
                       else 0 in
            let kld := if pos (w_kld c) then match stats with Some s => lsumR (map fst s) / B | None => 0 end else 0 in
            Ok (mkMetrics rec kld nll (w_rec c * rec + w_kld c * kld + w_nll c * nll))
        end
    end.
End Objective.

(** ** training helpers *)
Section Train.
  Variables P B : Type.
  Variable loss : bool -> P -> B -> result metrics.  (* loss_components in train/eval mode *)
  Variable update : P -> B -> result P.              (* zero_grad, backward, clipping, step *)
  Variable bsize : B -> nat.

  (** a module: the training flag and everything a step changes *)
  Record apc_model := mkApc { training : bool; params : P }.

  (** An iterable of batches: what its k-th iteration yields.  A DataLoader
      yields a (possibly reshuffled) full pass each time, a generator is
      exhausted after the first. *)
  Definition iterable := nat -> list B.
  Definition generator (l : list B) : iterable := fun k => match k with O => l | S _ => [] end.

  (** running totals: train.py 107-120, 165-181 *)
  Definition tot := (metrics * nat)%type.
  Definition tot0 : tot := (mkMetrics 0 0 0 0, O).
  Definition tot_add (t : tot) (m : metrics) (k : nat) : tot :=
    let s := fst t in
    (mkMetrics (m_rec s + m_rec m * INR k) (m_kld s + m_kld m * INR k)
               (m_nll s + m_nll m * INR k) (m_total s + m_total m * INR k), (snd t + k)%nat).
  Definition tot_mean (t : tot) : result metrics :=
    if Nat.eqb (snd t) 0 then Err
    else let n := INR (snd t) in let s := fst t in
         Ok (mkMetrics (m_rec s / n) (m_kld s / n) (m_nll s / n) (m_total s / n)).

  (** 59-86 *)
  Definition train_step (m : apc_model) (b : B) : apc_model * result metrics :=
    match loss true (params m) b with
    | Err => (mkApc true (params m), Err)
    | Ok r => match update (params m) b with
              | Err => (mkApc true (params m), Err)
              | Ok p => (mkApc true p, Ok r)
              end
    end.

  (** 113-120 *)
  Fixpoint eval_loop (p : P) (bs : list B) (t : tot) : result tot :=
    match bs with
    | [] => Ok t
    | b :: r => match loss false p b with Ok x => eval_loop p r (tot_add t x (bsize b)) | Err => Err end
    end.
  (** 89-128: the mode is restored after the loop (122-123), so not when a batch raises *)
  Definition evaluate (m : apc_model) (bs : list B) : apc_model * result metrics :=
    match eval_loop (params m) bs tot0 with
    | Err => (mkApc false (params m), Err)
    | Ok t => (mkApc (training m) (params m), tot_mean t)
    end.

  (** 168-179 *)
  Fixpoint train_loop (m : apc_model) (bs : list B) (t : tot) : apc_model * result tot :=
    match bs with
    | [] => (m, Ok t)
    | b :: r => match train_step m b with
                | (m', Ok x) => train_loop m' r (tot_add t x (bsize b))
                | (m', Err) => (m', Err)
                end
    end.

  (** one history row: epoch number, train metrics, validation metrics *)
  Record hrow := mkRow { h_epoch : nat; h_train : metrics; h_val : option metrics }.

  (** 164-192, from epoch [k] on, [n] epochs to go *)
  Fixpoint fit_from (k n : nat) (train : iterable) (val : option iterable) (m : apc_model) : apc_model * result (list hrow) :=
    match n with
    | O => (m, Ok [])
    | S n' =>
        match train_loop m (train k) tot0 with
        | (m1, Err) => (m1, Err)
        | (m1, Ok t) =>
            match tot_mean t with
            | Err => (m1, Err)
            | Ok tm =>
                match (match val with None => (m1, Ok None)
                       | Some v => match evaluate m1 (v k) with (m2, Ok x) => (m2, Ok (Some x)) | (m2, Err) => (m2, Err) end end) with
                | (m2, Err) => (m2, Err)
                | (m2, Ok vm) =>
                    match fit_from (S k) n' train val m2 with
                    | (m3, Ok rows) => (m3, Ok (mkRow (S k) tm vm :: rows))
                    | (m3, Err) => (m3, Err)
                    end
                end
            end
        end
    end.
  (** 131-194 *)
  Definition fit (epochs : nat) (train : iterable) (val : option iterable) (m : apc_model) : apc_model * result (list hrow) :=
    fit_from 0 epochs train val m.
End Train.

(** DataLoader(TensorDataset(data), batch_size): consecutive rows, the last batch
    short (train.py 45-49; shuffle=False) *)
Fixpoint batches_fuel {X} (fuel b : nat) (l : list X) : list (list X) :=
  match fuel, l with
  | S f, _ :: _ => firstn b l :: batches_fuel f b (skipn b l)
  | _, _ => []
  end.
Definition batches {X} (b : nat) (l : list X) : list (list X) := batches_fuel (length l) b l.
