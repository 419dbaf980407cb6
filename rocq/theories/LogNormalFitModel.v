(** Model of maximum_likelihood_estimation of a whole log-normal leaf: leaf.py 546-610
    (rows with NaN and weight normalisation: [apply_nan], [column] of MleModel)
    around log_normal.py 90-124. *)
From Coq Require Import List Arith Bool Reals.
From Verif Require Import Base LeafModel MleModel LogNormalModel.
Local Open Scope R_scope.

(** leaf.py 599-610; per entry, the estimates handed to _set_mle_parameters *)
Definition ln_mle (F C P : nat) (ulp : R) (bc : bool) (ns : nan_strategy) (d : list obs) : result (nat -> nat -> nat -> ext * ext) :=
  bind (apply_nan F C P ns d) (fun '(d', s) => Ok (fun f c r => est_lognormal ulp bc s (column f c r d'))).

