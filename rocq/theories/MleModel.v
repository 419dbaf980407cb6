(** Model of LeafModule.maximum_likelihood_estimation: spflow/modules/leaves/leaf.py
    546-610, spflow/utils/leaves.py 38-90 and 175-262, and the families'
    _compute_parameter_estimates / _set_mle_parameters.

    Floats: reals extended by NaN and the infinities ([ext]), so that the guards on
    NaN, zero and the bounds are the code's; no rounding. *)
From Coq Require Import List Arith ZArith Bool Reals.
From Verif Require Import Base ScopeModel CircuitModel LeafModel.
Import ListNotations.
Local Open Scope R_scope.

Inductive ext := XNan | XPInf | XNInf | XR (x : R).

Definition rcmp (a b : R) : comparison :=
  match total_order_T a b with inleft (left _) => Lt | inleft (right _) => Eq | inright _ => Gt end.
Definition xpos (a : R) : ext := match rcmp a 0 with Lt => XNInf | Eq => XNan | Gt => XPInf end.

(** IEEE division and the operations the estimators use on extended values *)
Definition xdiv (a b : ext) : ext :=
  match a, b with
  | XR x, XR y => if Req_EM_T y 0 then xpos x else XR (x / y)
  | XNan, _ | _, XNan => XNan
  | XR _, (XPInf | XNInf) => XR 0
  | (XPInf | XNInf), (XPInf | XNInf) => XNan
  | XPInf, XR y => match rcmp y 0 with Lt => XNInf | _ => XPInf end
  | XNInf, XR y => match rcmp y 0 with Lt => XPInf | _ => XNInf end
  end.
Definition xneg (a : ext) : ext := match a with XNan => XNan | XPInf => XNInf | XNInf => XPInf | XR x => XR (- x) end.
Definition xadd (a b : ext) : ext :=
  match a, b with
  | XNan, _ | _, XNan | XPInf, XNInf | XNInf, XPInf => XNan
  | XPInf, _ | _, XPInf => XPInf
  | XNInf, _ | _, XNInf => XNInf
  | XR x, XR y => XR (x + y)
  end.
Definition xsub (a b : ext) : ext := xadd a (xneg b).
Definition xmul (a b : ext) : ext :=
  match a, b with
  | XNan, _ | _, XNan => XNan
  | XR x, XR y => XR (x * y)
  | XPInf, XR y | XR y, XPInf => xpos y
  | XNInf, XR y | XR y, XNInf => xpos (- y)
  | XPInf, XPInf | XNInf, XNInf => XPInf
  | _, _ => XNInf
  end.
(** torch.log *)
Definition xlog (a : ext) : ext :=
  match a with
  | XR x => match rcmp x 0 with Lt => XNan | Eq => XNInf | Gt => XR (ln x) end
  | XPInf => XPInf
  | XNInf | XNan => XNan
  end.
(** torch.sqrt *)
Definition xsqrt (a : ext) : ext :=
  match a with
  | XR x => if rlt x 0 then XNan else XR (sqrt x)
  | XPInf => XPInf
  | XNInf | XNan => XNan
  end.
Definition xfinite (a : ext) : bool := match a with XR _ => true | _ => false end.
(** [a <= b] for a real bound [b]; false on NaN *)
Definition xle (a : ext) (b : R) : bool :=
  match a with XNan | XPInf => false | XNInf => true | XR x => rle x b end.
Definition xge (a : ext) (b : R) : bool :=
  match a with XNan | XNInf => false | XPInf => true | XR x => rle b x end.

(** utils/leaves.py 190: base_eps *)
Definition base_eps : R := / 100000000.

(** utils/leaves.py 175-262 with scalar bounds.  [ulp] is the distance to the next
    float at a bound (210-222); eps_lb / eps_ub (224-226) are the maximum of it and
    base_eps.  Without a lower bound (243-249) torch.isclose uses rtol*0 + 1e-8. *)
Definition edge_cases (ulp : R) (est : ext) (lb ub : option R) : ext :=
  let eps := Rmax base_eps ulp in
  let e1 := match est with XNan => XR base_eps | _ => est end in
  let e2 := match lb with
            | Some l => if xle e1 l then XR (l + eps) else e1
            | None => match e1 with XR x => if rle (Rabs x) (/ 100000000) then XR base_eps else e1 | _ => e1 end
            end in
  match ub with
  | Some u => if xge e2 u then XR (u - eps) else e2
  | None => e2
  end.

(** one training row of the leaf's columns: cells by feature, weight by
    (feature, channel, repetition) *)
Record obs := mkObs { o_cell : nat -> option R; o_w : nat -> nat -> nat -> R }.

Definition isnone {A} (o : option A) : bool := match o with None => true | Some _ => false end.
Definition has_nan (F : nat) (o : obs) : bool := existsb (fun f => isnone (o_cell o f)) (seq 0 F).
Definition all_nan (F : nat) (o : obs) : bool := allb F (fun f => isnone (o_cell o f)).

Inductive nan_strategy := NsNone | NsIgnore | NsOther.

(** [weights.sum()] over all rows, features, channels and repetitions *)
Definition wtotal (F C P : nat) (d : list obs) : R :=
  lsumR (map (fun o => bsum F (fun f => bsum C (fun c => bsum P (fun r => o_w o f c r)))) d).

(** utils/leaves.py 38-90: rows kept, and the factor [n / weights.sum()] (88) *)
Definition apply_nan (F C P : nat) (ns : nan_strategy) (d : list obs) : result (list obs * ext) :=
  if forallb (all_nan F) d then Err
  else
    let kept := if existsb (has_nan F) d
                then match ns with
                     | NsIgnore => Ok (filter (fun o => negb (has_nan F o)) d)
                     | _ => Err
                     end
                else Ok d in
    bind kept (fun d' => Ok (d', xdiv (XR (INR (length d'))) (XR (wtotal F C P d')))).

(** the column of one entry: (weight, value) pairs.  When no row is left the factor
    is NaN and so are the sums below, where the code has 0 (sums over nothing); the
    quotients and hence everything stored agree. *)
Definition column (f c r : nat) (d : list obs) : list (R * R) :=
  map (fun o => (o_w o f c r, match o_cell o f with Some a => a | None => 0 end)) d.
Definition S0 (l : list (R * R)) : R := lsumR (map fst l).
Definition S1 (l : list (R * R)) : R := lsumR (map (fun p => fst p * snd p) l).

(** What is estimated at an entry, by family. *)
Inductive estimate :=
| EBernoulli (p : ext)
| ECategorical (K : nat) (p : nat -> ext)
| EBinomial (n : nat) (p : ext)
| EGeometric (p : ext)
| EPoisson (rate : ext)
| ENegBin (r : nat) (p : ext)
| EExponential (rate : ext)
| ENormal (loc scale : ext)
| ELaplace (loc scale : ext).

(** _compute_parameter_estimates at one entry; [s] is the weight factor (the
    weights the code sees are [s * w]), [bc] the bias_correction flag.
    bernoulli.py 105-127 *)
Definition est_bernoulli (ulp : R) (s : ext) (l : list (R * R)) : estimate :=
  EBernoulli (edge_cases ulp (xdiv (xmul s (XR (S1 l))) (xmul s (XR (S0 l)))) (Some 0) None).

(** categorical.py 125-156: [data == cat], clamp to 1e-10, renormalise.  (A NaN
    estimate stays NaN through torch.clamp.) *)
Definition Scat (k : nat) (l : list (R * R)) : R :=
  lsumR (map (fun p => fst p * (if Req_EM_T (snd p) (INR k) then 1 else 0)) l).
Definition xclamp_min (a : ext) (b : R) : ext :=
  match a with XNan => XNan | XPInf => XPInf | XNInf => XR b | XR x => XR (Rmax x b) end.
Fixpoint xsum (n : nat) (f : nat -> ext) : ext := match n with O => XR 0 | S n' => xadd (xsum n' f) (f n') end.
Definition est_categorical (K : nat) (s : ext) (l : list (R * R)) : estimate :=
  let p k := xclamp_min (xdiv (xmul s (XR (Scat k l))) (xmul s (XR (S0 l)))) (/ 10000000000) in
  ECategorical K (fun k => xdiv (p k) (xsum K p)).

(** binomial.py 140-162 *)
Definition est_binomial (ulp : R) (n : nat) (s : ext) (l : list (R * R)) : estimate :=
  let s' := xdiv s (xmul s (XR (S0 l))) in
  EBinomial n (edge_cases ulp (xdiv (xmul s' (XR (S1 l))) (xmul (xmul s' (XR (S0 l))) (XR (INR n)))) (Some 0) (Some 1)).

(** geometric.py 107-132 *)
Definition est_geometric (ulp : R) (bc : bool) (s : ext) (l : list (R * R)) : estimate :=
  let n := xmul s (XR (S0 l)) in
  let p := xdiv n (xadd (xmul s (XR (S1 l))) n) in
  let p' := if bc then xsub p (xdiv (xmul p (xsub (XR 1) p)) n) else p in
  EGeometric (edge_cases ulp p' (Some 0) None).

(** poisson.py 82-103 *)
Definition est_poisson (ulp : R) (s : ext) (l : list (R * R)) : estimate :=
  EPoisson (edge_cases ulp (xdiv (xmul s (XR (S1 l))) (xmul s (XR (S0 l)))) (Some 0) None).

(** negative_binomial.py 136-160 *)
Definition est_negbin (ulp : R) (r : nat) (bc : bool) (s : ext) (l : list (R * R)) : estimate :=
  let n0 := xmul (xmul s (XR (S0 l))) (XR (INR r)) in
  let n := if bc then xsub n0 (XR 1) else n0 in
  ENegBin r (edge_cases ulp (xsub (XR 1) (xdiv n (xadd (xmul s (XR (S1 l))) n))) (Some 0) (Some 1)).

(** exponential.py 81-106 *)
Definition est_exponential (ulp : R) (bc : bool) (s : ext) (l : list (R * R)) : estimate :=
  let n0 := xmul s (XR (S0 l)) in
  let n := if bc then xsub n0 (XR 1) else n0 in
  EExponential (edge_cases ulp (xdiv n (xmul s (XR (S1 l)))) (Some 0) None).

(** normal.py 84-108; the centred squares are computed only when the mean is
    finite, otherwise everything is NaN *)
Definition Sdev (m : R) (l : list (R * R)) : R := lsumR (map (fun p => fst p * (snd p - m) ^ 2) l).
Definition est_normal (ulp : R) (bc : bool) (s : ext) (l : list (R * R)) : estimate :=
  let n := xmul s (XR (S0 l)) in
  let loc := xdiv (xmul s (XR (S1 l))) n in
  let num := match loc with XR m => xmul s (XR (Sdev m l)) | _ => XNan end in
  let den := if bc then xsub n (XR 1) else n in
  ENormal loc (edge_cases ulp (xsqrt (xdiv num den)) (Some 0) None).

(** laplace.py 82-109: torch.median = the lower median of the column, ignoring the
    weights; NaN for an empty column *)
Fixpoint rinsert (a : R) (l : list R) : list R :=
  match l with [] => [a] | b :: r => if Rle_dec a b then a :: b :: r else b :: rinsert a r end.
Definition rsort (l : list R) : list R := fold_right rinsert [] l.
Definition median (l : list R) : ext := nth ((length l - 1) / 2) (map XR (rsort l)) XNan.
Definition Sabs (m : R) (l : list (R * R)) : R := lsumR (map (fun p => fst p * Rabs (snd p - m)) l).
Definition est_laplace (ulp : R) (s : ext) (l : list (R * R)) : estimate :=
  let loc := median (map snd l) in
  let n := xmul s (XR (S0 l)) in
  let num := match loc with XR m => xmul s (XR (Sabs m l)) | _ => XNan end in
  ELaplace loc (edge_cases ulp (xdiv num n) (Some 0) None).

(** The property setters that store an estimate: logit for probabilities
    (bernoulli.py 69-73 and alike, projections.py 136), log for categorical
    probabilities, rates and scales. *)
Definition xlogit (p : ext) : ext := xlog (xdiv (xsub p (XR 0)) (xsub (XR 1) p)).
Definition store (e : estimate) : list ext :=
  match e with
  | EBernoulli p | EBinomial _ p | EGeometric p | ENegBin _ p => [xlogit p]
  | ECategorical K p => map (fun k => xlog (p k)) (seq 0 K)
  | EPoisson r | EExponential r => [xlog r]
  | ENormal m sc | ELaplace m sc => [m; xlog sc]
  end.

(** the family member with the stored parameters, if they are all finite: what
    init_parameter (utils/leaves.py 110-111) accepts *)
Definition stored_fam (e : estimate) : option fam :=
  match e, store e with
  | EBernoulli _, [XR l] => Some (FBernoulli l)
  | EBinomial n _, [XR l] => Some (FBinomial n l)
  | EGeometric _, [XR l] => Some (FGeometric l)
  | ENegBin r _, [XR l] => Some (FNegBin r l)
  | EPoisson _, [XR l] => Some (FPoisson l)
  | EExponential _, [XR l] => Some (FExponential l)
  | ENormal _ _, [XR m; XR l] => Some (FNormal m l)
  | ELaplace _ _, [XR m; XR l] => Some (FLaplace m l)
  | ECategorical K _, st =>
      if forallb xfinite st
      then Some (FCategorical K (fun k => match nth k st XNan with XR x => x | _ => 0 end))
      else None
  | _, _ => None
  end.

(** the current family decides the estimator *)
Definition estimate_of (fm : fam) (ulp : R) (bc : bool) (s : ext) (l : list (R * R)) : option estimate :=
  match fm with
  | FBernoulli _ => Some (est_bernoulli ulp s l)
  | FCategorical K _ => Some (est_categorical K s l)
  | FBinomial n _ => Some (est_binomial ulp n s l)
  | FGeometric _ => Some (est_geometric ulp bc s l)
  | FPoisson _ => Some (est_poisson ulp s l)
  | FNegBin r _ => Some (est_negbin ulp r bc s l)
  | FExponential _ => Some (est_exponential ulp bc s l)
  | FNormal _ _ => Some (est_normal ulp bc s l)
  | FLaplace _ _ => Some (est_laplace ulp s l)
  | FHyper _ _ _ | FUniform _ _ => None (* parameters are fixed: uniform.py 98-126, hypergeometric.py *)
  end.

(** leaf.py 580-610: maximum_likelihood_estimation(data, weights, bias_correction,
    nan_strategy) of a leaf with [F] features, [C] channels, [P] repetitions;
    per entry, what is stored ([None]: the entry is left as it is). *)
Definition mle (F C P : nat) (fams : nat -> nat -> nat -> fam) (ulp : R) (bc : bool)
    (ns : nan_strategy) (d : list obs) : result (nat -> nat -> nat -> option estimate) :=
  bind (apply_nan F C P ns d) (fun '(d', s) =>
    Ok (fun f c r => estimate_of (fams f c r) ulp bc s (column f c r d'))).

(** leaf.py 566-573: weights omitted *)
Definition unweighted (d : list (nat -> option R)) : list obs := map (fun x => mkObs x (fun _ _ _ => 1)) d.
