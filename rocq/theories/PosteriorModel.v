(** Models of spflow/utils/inference.py, interfaces/classifier.py and the class
    posteriors of zoo/rat/rat_spn.py, zoo/einet/einet.py and zoo/naive_bayes.py. *)
From Coq Require Import List Arith Bool Reals.
From Verif Require Import Base CircuitModel SampleModel.
Import ListNotations.
Local Open Scope R_scope.

(** inference.py 23-31 for one row over [n] classes.  [None] is the NaN of
    [-inf - (-inf)], which appears exactly when logsumexp is -inf. *)
Definition log_posterior (n : nat) (ll prior : nat -> lval) (c : nat) : option lval :=
  match lse n (fun j => ladd (ll j) (prior j)) with
  | NInf => None
  | Fin z => Some (ladd (ladd (ll c) (prior c)) (Fin (- z)))
  end.

(** rat_spn.py 251-260, einet.py 363-373, naive_bayes.py 174-175: exp *)
Definition predict_proba (n : nat) (ll prior : nat -> lval) (c : nat) : option R :=
  option_map pr (log_posterior n ll prior c).

(** classifier.py 28-37: torch.argmax over classes: the first maximum, or the first NaN *)
Fixpoint oargmax (n : nat) (g : nat -> option R) : nat :=
  match n with
  | O => O
  | S k => if Nat.eqb k 0 then 0%nat else
           let b := oargmax k g in
           match g b, g k with
           | None, _ => b
           | Some _, None => k
           | Some x, Some y => if Rlt_dec x y then k else b
           end
  end.
Definition predict (n : nat) (ll prior : nat -> lval) : nat := oargmax n (predict_proba n ll prior).

(** A classifier is [Sum(inputs, out_channels=1, num_repetitions=1)] whose input has one
    feature, one repetition and one channel per class (rat_spn.py 190-196, naive_bayes.py
    61-69, einet.py): [inputs] is that module, [lg] the logits of the root.
    rat_spn.py 220-249, naive_bayes.py 157-172, einet.py 336-361: [log_weights] is
    log_softmax of the logits; a single class raises. *)
Definition class_log_posterior (inputs : module) (lg : nat -> R) (x : row) : result (nat -> option lval) :=
  let n := channels (out_shape inputs) in
  if Nat.leb n 1 then Err
  else Ok (log_posterior n (fun c => loglik inputs x 0 c 0) (fun c => Fin (log_softmax n lg c))).
Definition class_predict_proba (inputs : module) (lg : nat -> R) (x : row) : result (nat -> option R) :=
  bind (class_log_posterior inputs lg x) (fun p => Ok (fun c => option_map pr (p c))).
Definition class_predict (inputs : module) (lg : nat -> R) (x : row) : result nat :=
  bind (class_predict_proba inputs lg x) (fun p => Ok (oargmax (channels (out_shape inputs)) p)).
(** the model itself: rat_spn.py 190-196 *)
Definition class_root (inputs : module) (lg : nat -> R) : module := MSum inputs 1 1 (fun _ i _ _ => lg i).

(** rat_spn.py 262-335 for [n_root_nodes > 1], one row with [W] columns: the root channel
    is drawn from the root logits (argmax in mpe mode), then the input of the root is
    sampled with that channel; [ev] is the evidence whose log-likelihoods are cached
    (module.py 322), or [None]. *)
Definition rat_sample (mpe : bool) (W : nat) (ev : option row) (inputs : module) (lg : nat -> R) (x : row) : prog row :=
  pbind (sample_logits mpe (channels (out_shape inputs)) (fun c => Fin (lg c)))
    (fun c => sample_m mpe W ev inputs (mkCtx [c] [true] 0) x).
(** module.py 297-329 inherited by RatSPN *)
Definition rat_sample_with_evidence (mpe : bool) (W : nat) (inputs : module) (lg : nat -> R) (e : row) : prog row :=
  match ll_shape (class_root inputs lg) with
  | Err => Raise
  | Ok _ => if forallb (fun v => Nat.ltb v W) (ScopeModel.query (scope_of inputs))
            then rat_sample mpe W (Some e) inputs lg e else Raise
  end.

(** naive_bayes.py 102-119: the prior weights of the root; [None]: no class_prior given *)
Definition nb_prior (n : nat) (p : option (nat -> R)) : result (nat -> R) :=
  match p with
  | None => Ok (fun _ => 1 / INR n)
  | Some q => if allb n (fun c => negb (rle (q c) 0)) then Ok (fun c => q c / bsum n q) else Err
  end.
(** naive_bayes.py 121-125, 215-224: the prior after supervised estimation: class counts
    plus machine epsilon [eps], normalised *)
Definition count_of (c : nat) (ys : list nat) : nat := length (filter (Nat.eqb c) ys).
Definition nb_empirical (eps : R) (n : nat) (ys : list nat) (c : nat) : R :=
  (INR (count_of c ys) + eps) / bsum n (fun j => INR (count_of j ys) + eps).
