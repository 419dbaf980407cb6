(** Class posteriors of RatSPN and Einet: rat_spn.py 220-260, einet.py 336-373,
    interfaces/classifier.py 28-37. *)
From Coq Require Import List Arith Bool Reals.
From Verif Require Import Base ScopeModel CircuitModel CircuitSpec SampleModel EmModel LayerModel FactorModel StackModel PosteriorModel.
Import ListNotations.
Local Open Scope R_scope.

(** log_likelihood of root_node.inputs: every layer but the last *)
Definition inputs_ll (k : stack) (x : row) : result nt :=
  bind (leaf_tensor (k_leaf k) x) (fun t => bind (fact_run (k_fact k) t) (run_all (removelast (k_layers k)))).
(** the logits of the root node, if it is a Sum: (1, classes, 1, 1) *)
Definition root_logits (k : stack) : result (nat -> R) :=
  match rev (k_layers k) with
  | l :: _ => match l_op l with OSum 1 1 lg => Ok (fun j => lg 0%nat j 0%nat 0%nat) | _ => Err end
  | [] => Err
  end.
(** rat_spn.py 237-249 / einet.py 353-361 for a model with [n] root nodes / classes.
    The prior is log_softmax of the root logits (sum.py log_weights).  The rearrangement
    "b 1 co 1 -> b co" needs one feature and one repetition; a NaN among the class
    log-likelihoods makes logsumexp, hence every entry, NaN. *)
Definition stack_log_posterior (n : nat) (k : stack) (x : row) : result (nat -> option lval) :=
  if Nat.leb n 1 then Err
  else
  bind (root_logits k) (fun lg =>
  bind (inputs_ll k x) (fun t =>
  let s := t_sh (n_t t) in
  if (Nat.eqb (features s) 1 && Nat.eqb (repetitions s) 1 && Nat.eqb (channels s) n)%bool
  then Ok (fun c => if anyb n (fun j => n_nan t 0%nat j 0%nat) then None
                    else log_posterior n (fun j => t_ll (n_t t) 0%nat j 0%nat) (fun j => Fin (log_softmax n lg j)) c)
  else Err)).
(** rat_spn.py 251-260, einet.py 363-373 *)
Definition stack_predict_proba (n : nat) (k : stack) (x : row) : result (nat -> option R) :=
  bind (stack_log_posterior n k x) (fun p => Ok (fun c => option_map pr (p c))).
(** classifier.py 28-37 *)
Definition stack_predict (n : nat) (k : stack) (x : row) : result nat :=
  bind (stack_predict_proba n k x) (fun p => Ok (oargmax n p)).
