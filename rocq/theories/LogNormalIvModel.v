(** Model of interval evidence on a log-normal leaf: LogNormal inherits
    LeafModule._log_likelihood_interval (leaf.py 479-544; [base_iv] of IvModel). *)
From Coq Require Import List Arith Bool Reals.
From Verif Require Import Base CircuitModel LeafModel IvModel LogNormalModel.
Local Open Scope R_scope.

(** torch.distributions.LogNormal.cdf = TransformedDistribution.cdf: the logarithm
    of the argument is validated against the real line, which accepts the infinities
    and rejects NaN (log of a negative number), then given to Normal.cdf;
    log 0 is -inf. *)
Definition lognormal_cdf (p : lognormal) (a : fl) : result R :=
  let base := normal_cdf (ln_loc p) (exp (ln_log_scale p)) in
  match a with
  | Num x => if Rlt_dec x 0 then Err else if Req_EM_T x 0 then Ok (base Minf) else Ok (base (Num (ln x)))
  | Pinf => Ok (base Pinf)
  | Minf | Nan => Err
  end.

(** leaf.py 519-544 on one entry with bounds [lo], [hi] *)
Definition ln_iv (p : lognormal) (lo hi : fl) : result lval := base_iv (lognormal_cdf p) lo hi.
