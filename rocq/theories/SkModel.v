(** Model of spflow/interfaces/sklearn.py: the scikit-learn wrappers.

    Not modelled: dtypes, devices, numpy conversion and the shape of the data array (a
    batch is a list of rows).  The structure learners and MLE are abstract partial
    functions; the fitted circuit's log_likelihood is the one of CircuitModel. *)
From Coq Require Import List Arith ZArith Bool.
From Verif Require Import Base ScopeModel CircuitModel CmsModel PosteriorModel.
Import ListNotations.
Local Open Scope R_scope.

(** the strings of channel_agg / repetition_agg; [Unknown] is any other string *)
Inductive agg := LogMeanExp | LogSumExp | First | Unknown.

(** 107-116: reduction of the [n] entries [g] of one dimension *)
Definition reduce_over (n : nat) (method : agg) (g : nat -> lval) : result lval :=
  if Nat.eqb n 1 then Ok (g 0%nat)
  else match method with
       | First => if Nat.eqb n 0 then Err else Ok (g 0%nat)
       | LogSumExp => Ok (lse n g)
       | LogMeanExp => if Nat.eqb n 0 then Err else Ok (ladd (lse n g) (Fin (- ln (INR n))))
       | Unknown => Err
       end.

(** the dimensions of a log-likelihood tensor besides the batch *)
Inductive dims := D1 (f : nat) | D2 (f c : nat) | D3 (f c r : nat) | DOther.
(** 95-100 *)
Definition to_shape (d : dims) : result shape :=
  match d with D1 f => Ok (mkShape f 1 1) | D2 f c => Ok (mkShape f c 1) | D3 f c r => Ok (mkShape f c r) | DOther => Err end.

(** 105, 118-119: one row.  The reductions act on whole tensors: an unknown method fails
    whatever the values, so the second reduction is only reached after the first succeeded
    for every channel *)
Definition reduce_row (s : shape) (channel_agg repetition_agg : agg) (g : nat -> nat -> nat -> lval) : result lval :=
  let t c r := ladds (features s) (fun f => g f c r) in
  match reduce_over (repetitions s) repetition_agg (fun _ => NInf) with
  | Err => Err
  | Ok _ => reduce_over (channels s) channel_agg
              (fun c => match reduce_over (repetitions s) repetition_agg (t c) with Ok v => v | Err => NInf end)
  end.

(** 79-120: _reduce_log_likelihood; an empty batch returns before any check of the methods *)
Definition reduce_log_likelihood (d : dims) (batch : list (nat -> nat -> nat -> lval)) (channel_agg repetition_agg : agg) : result (list lval) :=
  bind (to_shape d) (fun s => mapr (reduce_row s channel_agg repetition_agg) batch).

(** 261-272: score_samples of a fitted circuit *)
Definition score_samples (m : module) (channel_agg repetition_agg : agg) (xs : list row) : result (list lval) :=
  bind (ll_shape m) (fun s =>
  reduce_log_likelihood (D3 (features s) (channels s) (repetitions s)) (map (fun x => loglik m x) xs) channel_agg repetition_agg).

Section Estimator.
  Variables (M Data Rng Samples : Type).
  (** learn_spn / learn_prometheus with the assembled arguments (222-235, including the
      leaf template and the check of structure_learner); maximum_likelihood_estimation
      (243-257), which works in place and may leave a changed model when it raises;
      sampling, which advances the random number generator; torch.manual_seed *)
  Variables (learn : Data -> result M) (has_mle : M -> bool) (mle : M -> Data -> M * bool) (width : Data -> nat).
  Variables (draw : M -> nat -> Rng -> result Samples * Rng) (manual_seed : Z -> Rng).

  (** the estimator: its constructor argument [e_model] (None, or Some model, the object
      itself), and the attributes fit adds *)
  Record est := mkEst { e_model : option M; e_fit_params : bool; e_fitted : option M; e_features : option nat }.
  (** 210-259; the flag tells whether fit raised.  With a given model, model_ is the same
      object as model, so both change together *)
  Definition fit (e : est) (X : Data) : est * bool :=
    let nf := Some (width X) in
    match e_model e with
    | None =>
        match learn X with
        | Ok m => (mkEst None (e_fit_params e) (Some m) nf, false)
        | Err => (mkEst None (e_fit_params e) (e_fitted e) nf, true)
        end
    | Some m =>
        if negb (e_fit_params e) then (mkEst (Some m) false (Some m) nf, false)
        else if negb (has_mle m) then (mkEst (Some m) true (Some m) nf, true)
        else let '(m', raised) := mle m X in (mkEst (Some m') true (Some m') nf, raised)
    end.

  (** 274-299: sample.  torch.random.fork_rng restores the generator's state on exit,
      whether or not a seed was given (294-296) *)
  Definition sample (e : est) (n_samples : Z) (random_state : option Z) (g : Rng) : result Samples * Rng :=
    match e_fitted e with
    | None => (Err, g)
    | Some m =>
        if Z.ltb n_samples 1 then (Err, g)
        else
          let g0 := match random_state with Some z => manual_seed z | None => g end in
          (fst (draw m (Z.to_nat n_samples) g0), g)
    end.
End Estimator.

(** 333-338: fit of the classifier: np.unique sorts the labels and removes duplicates;
    labels are natural numbers here *)
Definition classes (y : list nat) : list nat := sortu y.
(** 347-352: predict; [K] classes, [probs i] the model's predict_proba of row [i]; an
    index past the labels raises IndexError *)
Definition sk_predict (y : list nat) (K : nat) (probs : list (nat -> option R)) : result (list nat) :=
  mapr (fun p => match nth_error (classes y) (oargmax K p) with Some l => Ok l | None => Err end) probs.
