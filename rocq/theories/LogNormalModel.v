(** Model of the log-normal leaf: spflow/modules/leaves/log_normal.py (whole file),
    with leaf.py 388-477 (log_likelihood), 675-684 (mode) and 580-610 (MLE). *)
From Coq Require Import List Arith Bool Reals.
From Verif Require Import Base ScopeModel CircuitModel LeafModel MleModel.
Import ListNotations.
Local Open Scope R_scope.

(** The parameters stored at one entry: [loc] and [log_scale]
    (log_normal.py 59-63); [scale] reads exp of the latter (65-68). *)
Record lognormal := mkLN { ln_loc : R; ln_log_scale : R }.

(** torch.distributions.LogNormal.support = positive, the constraint log_prob's
    argument is validated against (log_normal.py 82-84, leaf.py 461). *)
Definition ln_supp (a : R) : bool := rlt 0 a.

(** torch.distributions.LogNormal.log_prob (a TransformedDistribution of Normal by
    exp: the base log-probability of log(value) minus the log-determinant, which is
    log(value)); float arithmetic idealised to reals. *)
Definition ln_log_prob (p : lognormal) (a : R) : R :=
  (- ((ln a - ln_loc p) ^ 2) / (2 * exp (ln_log_scale p) ^ 2) - ln (exp (ln_log_scale p)) - ln (sqrt (2 * PI))) - ln a.

(** log_prob as a total function; outside the support the leaf raises, see [lnl_ll]. *)
Definition ln_lp (p : lognormal) (a : R) : lval := if ln_supp a then Fin (ln_log_prob p a) else NInf.

(** torch.distributions.LogNormal.mode, returned by leaf.py 675-684 *)
Definition ln_mode (p : lognormal) : R := exp (ln_loc p - exp (ln_log_scale p) ^ 2).

(** A leaf: scope, channels, repetitions and the parameters per entry. *)
Record lnleaf := mkLNLeaf { lnl_scope : scope; lnl_ch : nat; lnl_rep : nat; lnl_par : nat -> nat -> nat -> lognormal }.

(** as a leaf of the circuit model *)
Definition lnl_leaf (l : lnleaf) : leaf :=
  mkLeaf (lnl_scope l) (lnl_ch l) (lnl_rep l) (fun f c r => ln_lp (lnl_par l f c r)) (fun f c r => ln_mode (lnl_par l f c r)).

(** log_normal.py 77-80 *)
Definition ln_supported_value : R := 1.

(** the argument log_prob receives: the cell, or the supported value when the cell
    is NaN (leaf.py 432-446) *)
Definition ln_imputed (l : lnleaf) (x : row) (f : nat) : R :=
  match x (nth f (query (lnl_scope l)) 0%nat) with Some a => a | None => ln_supported_value end.

(** leaf.py 425-477 for one row with validate_args=True: the whole broadcast
    argument is validated; NaN cells are imputed, scored and overwritten by 0. *)
Definition lnl_ll (l : lnleaf) (x : row) : result (nat -> nat -> nat -> lval) :=
  if allb (length (query (lnl_scope l))) (fun f => allb (lnl_ch l) (fun _ => allb (lnl_rep l) (fun _ => ln_supp (ln_imputed l x f))))
  then Ok (fun f c r => match x (nth f (query (lnl_scope l)) 0%nat) with
                        | None => Fin 0
                        | Some a => Fin (ln_log_prob (lnl_par l f c r) a)
                        end)
  else Err.

(** log_normal.py 90-124: _compute_parameter_estimates on one entry's column of
    (weight, value) pairs: the logarithms of the data, then their weighted mean and
    deviation.  Values are positive (the logarithm of others is not modelled).
    [s] is the factor applied to the weights, [ulp] the distance to the next float
    at the bound (utils/leaves.py 210-222). *)
Definition est_lognormal (ulp : R) (bc : bool) (s : ext) (l : list (R * R)) : ext * ext :=
  let l' := map (fun p => (fst p, ln (snd p))) l in
  let n_total := xmul s (XR (S0 l')) in
  let loc := xdiv (xmul s (XR (S1 l'))) n_total in
  let num := match loc with XR m => xmul s (XR (Sdev m l')) | _ => XNan end in
  let den := if bc then xsub n_total (XR 1) else n_total in
  (loc, edge_cases ulp (xsqrt (xdiv num den)) (Some 0) None).

(** log_normal.py 126-138: the setter stores log of the scale *)
Definition ln_store (e : ext * ext) : ext * ext := (fst e, xlog (snd e)).
Definition ln_stored (e : ext * ext) : option lognormal :=
  match ln_store e with (XR m, XR ls) => Some (mkLN m ls) | _ => None end.
