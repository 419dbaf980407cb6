(** Model of interval evidence: spflow/meta/data/interval_evidence.py,
    spflow/utils/range_inference.py, LeafModule._log_likelihood_interval and its
    overrides.  Sum, Product and Cat pass the evidence object to their inputs
    unchanged (sum.py 265, product.py 74, cat.py 101), so a circuit is evaluated by
    [evalm] with the leaves' interval scores.
    Idealisation: floats are reals (plus NaN and the infinities); the literal
    1.4142135623730951 of normal.py 163 is the square root of two. *)
From Coq Require Import List Arith ZArith Bool Reals.
From Coquelicot Require Import Coquelicot.
From Verif Require Import Base ScopeModel CircuitModel CircuitMarg LeafModel.
Import ListNotations.
Local Open Scope R_scope.

(** float values *)
Inductive fl := Nan | Minf | Pinf | Num (x : R).
Definition isfinite (a : fl) : bool := match a with Num _ => true | _ => false end.
(** [a <= b] on floats: false when one side is NaN *)
Definition fle (a b : fl) : bool :=
  match a, b with
  | Nan, _ | _, Nan => false
  | Minf, _ | _, Pinf => true
  | Num x, Num y => rle x y
  | _, _ => false
  end.
Definition fgt (a b : fl) : bool := match a, b with Nan, _ | _, Nan => false | _, _ => negb (fle a b) end.

(** interval_evidence.py 37-48: IntervalEvidence(low, high) on tensors with the
    shapes [shl] and [shh]; the evidence is stored as given. *)
Record ivev := mkIv { iv_rows : nat; iv_cols : nat; iv_low : nat -> nat -> fl; iv_high : nat -> nat -> fl }.
Definition mk_iv (shl shh : list nat) (lo hi : nat -> nat -> fl) : result ivev :=
  if negb (if list_eq_dec Nat.eq_dec shl shh then true else false) then Err
  else match shl with
       | [B; F] =>
           if allb B (fun b => allb F (fun j =>
                if (isfinite (lo b j) && isfinite (hi b j))%bool then negb (fgt (lo b j) (hi b j)) else true))
           then Ok (mkIv B F lo hi) else Err
       | _ => Err
       end.

(** the bounds of one row of evidence, per column *)
Definition ivrow := nat -> fl * fl.
Definition row_of (ev : ivev) (b : nat) : ivrow := fun v => (iv_low ev b v, iv_high ev b v).

Definition rfloor (x : R) : R := IZR (Int_part x).
Definition rceil (x : R) : R := - rfloor (- x).
Definition fl_map (g : R -> R) (a : fl) : fl := match a with Num x => Num (g x) | _ => a end.
(** torch.where(isnan(a), d, a) *)
Definition nan_to (d a : fl) : fl := match a with Nan => d | _ => a end.

(** torch.clamp(p, min=1e-40) then torch.log *)
Definition clamp40 (p : R) : R := Rmax p (/ 10 ^ 40).
Definition log40 (p : R) : lval := Fin (ln (clamp40 p)).

(** torch.erf *)
Definition erf (z : R) : R := 2 / sqrt PI * RInt (fun t => exp (- (t * t))) 0 z.

(** normal.py 164-165 *)
Definition normal_cdf (loc scale : R) (a : fl) : R :=
  match a with
  | Num x => 0.5 * (1 + erf ((x - loc) / (scale * sqrt 2)))
  | Minf => 0.5 * (1 + -1)
  | _ => 0.5 * (1 + 1)
  end.

(** torch.sign and torch.expm1 *)
Definition rsign (x : R) : R := if Rlt_dec x 0 then -1 else if Rlt_dec 0 x then 1 else 0.
Definition expm1 (x : R) : R := exp x - 1.

(** torch.distributions.Laplace.cdf; its support is the real line, so the
    validation accepts the infinities *)
Definition laplace_cdf (loc scale : R) (a : fl) : result R :=
  match a with
  | Num x => Ok (0.5 - 0.5 * rsign (x - loc) * expm1 (- Rabs (x - loc) / scale))
  | Pinf => Ok (0.5 - 0.5 * 1 * -1)
  | Minf => Ok (0.5 - 0.5 * -1 * -1)
  | Nan => Err
  end.

(** torch.distributions.Exponential.cdf; validate_args=True rejects arguments
    outside the support [0, oo) *)
Definition exponential_cdf (rate : R) (a : fl) : result R :=
  match a with
  | Num x => if rle 0 x then Ok (1 - exp (- rate * x)) else Err
  | Pinf => Ok (1 - 0)
  | Minf | Nan => Err
  end.

(** leaf.py 519-544: the default implementation *)
Definition base_iv (cdf : fl -> result R) (lo hi : fl) : result lval :=
  bind (cdf (nan_to Pinf hi)) (fun ch => bind (cdf (nan_to Minf lo)) (fun cl => Ok (log40 (ch - cl)))).

(** bernoulli.py 156-194 *)
Definition bernoulli_iv (p : R) (lo hi : fl) : lval :=
  let l := match lo with Nan => Num 0 | _ => fl_map rceil lo end in
  let h := match hi with Nan => Num 1 | _ => fl_map rfloor hi end in
  let p0 := if (fle l (Num 0) && fle (Num 0) h)%bool then 1 - p else 0 in
  let p1 := if (fle l (Num 1) && fle (Num 1) h)%bool then p else 0 in
  log40 (p0 + p1).

(** categorical.py 187-235 *)
Definition categorical_iv (K : nat) (p : nat -> R) (lo hi : fl) : lval :=
  let l := match lo with Nan => Num 0 | _ => fl_map rceil lo end in
  let h := match hi with Nan => Num (INR K - 1) | _ => fl_map rfloor hi end in
  log40 (bsum K (fun k => p k * (if (fle l (Num (INR k)) && fle (Num (INR k)) h)%bool then 1 else 0))).

(** uniform.py 152-165 *)
Definition uniform_iv (a b : R) (lo hi : fl) : lval :=
  let el := match lo with Nan | Minf => Num a | Num x => Num (Rmax x a) | Pinf => Pinf end in
  let eh := match hi with Nan | Pinf => Num b | Num x => Num (Rmin x b) | Minf => Minf end in
  let len := match el, eh with Num x, Num y => Rmax (y - x) 0 | _, _ => 0 (* -inf clamped *) end in
  lfrom (len / (b - a)).

(** _log_likelihood_interval of one (feature, channel, repetition) entry; the
    remaining families have no cdf in torch: NotImplementedError (leaf.py 513-539) *)
Definition fam_iv (fm : fam) (lo hi : fl) : result lval :=
  match fm with
  | FBernoulli l => Ok (bernoulli_iv (sigmoid l) lo hi)
  | FCategorical K lg => Ok (categorical_iv K (softmax K lg) lo hi)
  | FUniform a b => Ok (uniform_iv a b lo hi)
  | FNormal m ls => Ok (log40 (normal_cdf m (exp ls) (nan_to Pinf hi) - normal_cdf m (exp ls) (nan_to Minf lo)))
  | FLaplace m ls => base_iv (laplace_cdf m (exp ls)) lo hi
  | FExponential lr => base_iv (exponential_cdf (exp lr)) lo hi
  | FBinomial _ _ | FGeometric _ | FPoisson _ | FNegBin _ _ | FHyper _ _ _ => Err
  end.

Definition entry_iv (l : fleaf) (ev : ivrow) (f c r : nat) : result lval :=
  let b := ev (nth f (query (fl_scope l)) 0%nat) in fam_iv (fl_fam l f c r) (fst b) (snd b).

Definition is_ok {A} (x : result A) : bool := match x with Ok _ => true | Err => false end.
Definition get_ok (x : result lval) : lval := match x with Ok v => v | Err => NInf end.

(** leaf.py 425-427, 479-544 on one row: an entry that raises aborts the call *)
Definition leaf_iv (l : fleaf) (ev : ivrow) : result (nat -> nat -> nat -> lval) :=
  if allb (length (query (fl_scope l))) (fun f => allb (fl_ch l) (fun c => allb (fl_rep l) (fun r =>
       is_ok (entry_iv l ev f c r))))
  then Ok (fun f c r => get_ok (entry_iv l ev f c r)) else Err.

(** log_likelihood(IntervalEvidence) of a circuit, one row; [fo] gives the family
    parameters behind each leaf of the circuit. *)
Definition iv_loglik (fo : leaf -> fleaf) (m : module) (ev : ivrow) : result (nat -> nat -> nat -> lval) :=
  if forallb (fun l => is_ok (leaf_iv (fo l) ev)) (leaves_of m)
  then Ok (evalm (fun l f c r => get_ok (entry_iv (fo l) ev f c r)) m) else Err.

(** range_inference.py 21-58: build the evidence, then evaluate (row [b]) *)
Definition log_likelihood_interval (fo : leaf -> fleaf) (m : module) (shl shh : list nat)
  (lo hi : nat -> nat -> fl) (b : nat) : result (nat -> nat -> nat -> lval) :=
  bind (mk_iv shl shh lo hi) (fun ev => iv_loglik fo m (row_of ev b)).
