(** Model of signed circuits, inner products and sums of compatible squares:
    spflow/utils/signed_semiring.py, spflow/modules/sums/signed_sum.py,
    spflow/zoo/sos/signed_categorical.py, spflow/modules/sos/socs.py,
    spflow/utils/inner_product_core.py, spflow/learn/build_socs.py.

    Idealisations: floats are reals, logarithms live in [lval] (-inf or finite);
    one data row at a time; all repetition extents equal (no broadcasting);
    traversal and memo caches are omitted (see CacheModel). *)
From Coq Require Import List Arith ZArith Bool Reals.
From Coquelicot Require Import Coquelicot.
From Verif Require Import Base ScopeModel CircuitModel MargModel LeafModel SampleModel.
Import ListNotations.
Local Open Scope R_scope.

(** ** signed_semiring.py *)

(** signed_semiring.py 16-18: torch.sign as an int8 *)
Definition sgn (x : R) : Z := if Rlt_dec x 0 then (-1)%Z else if Rlt_dec 0 x then 1%Z else 0%Z.

(** max of [n] extended logs: signed_semiring.py 56 (torch.max) *)
Definition lmax2 (a b : lval) : lval :=
  match a, b with
  | NInf, _ => b
  | _, NInf => a
  | Fin x, Fin y => Fin (Rmax x y)
  end.
Fixpoint lmax (n : nat) (a : nat -> lval) : lval :=
  match n with O => NInf | S n => lmax2 (lmax n a) (a n) end.

(** exp(a - m) for a finite maximum m: signed_semiring.py 63 *)
Definition scaled (a : lval) (m : R) : R := match a with NInf => 0 | Fin x => exp (x - m) end.

(** signed_semiring.py 33-84 with eps = 0 over the reduced dimension of extent
    [n]; an empty tensor raises (52-53). *)
Definition slse (n : nat) (t : nat -> lval * Z) : lval * Z :=
  match lmax n (fun i => fst (t i)) with
  | NInf => (NInf, 0%Z)
  | Fin m =>
      let s := bsum n (fun i => scaled (fst (t i)) m * IZR (snd (t i))) in
      (if Req_EM_T s 0 then NInf else Fin (m + ln (Rabs s)), sgn s)
  end.
Definition signed_logsumexp (n : nat) (t : nat -> lval * Z) : result (lval * Z) :=
  if Nat.eqb n 0 then Err else Ok (slse n t).

(** ** Signed circuits *)

(** A monotone leaf of one of the families of LeafModel, or a SignedCategorical
    (signed_categorical.py 29-80): scope, channels, repetitions, K, weights[f,c,r,k]. *)
Inductive sleaf :=
| SFam (l : fleaf)
| SSC (sc : scope) (ch rep K : nat) (w : nat -> nat -> nat -> nat -> R).

(** The modules a component is made of: [SSum c co rr lg] is Sum with logits
    (sum.py), [SSigned c co rr w] is SignedSum with weights w[f,ci,co,r]
    (signed_sum.py 41-86), [SCat]/[SProduct] as in CircuitModel. *)
Inductive smod :=
| SLeaf (l : sleaf)
| SSum (c : smod) (co rr : nat) (lg : nat -> nat -> nat -> nat -> R)
| SSigned (c : smod) (co rr : nat) (w : nat -> nat -> nat -> nat -> R)
| SCat (d2 : bool) (sc : scope) (cs : list smod)
| SProduct (c : smod).

Definition sl_scope (l : sleaf) : scope := match l with SFam l => fl_scope l | SSC sc _ _ _ _ => sc end.
Definition sl_ch (l : sleaf) : nat := match l with SFam l => fl_ch l | SSC _ ch _ _ _ => ch end.
Definition sl_rep (l : sleaf) : nat := match l with SFam l => fl_rep l | SSC _ _ rep _ _ => rep end.

(** The structure of a signed circuit as a circuit of CircuitModel, keeping the
    monotone leaves and sums and forgetting signed weights: the scope, shape and feature_to_scope computations of SignedSum
    (signed_sum.py 53-67, 88-90) and SignedCategorical (signed_categorical.py
    60-62, 82-88) are those of Sum and of leaves. *)
Fixpoint skel (m : smod) : module :=
  match m with
  | SLeaf l => MLeaf (mkLeaf (sl_scope l) (sl_ch l) (sl_rep l)
                 (match l with SFam l => fun f c r => fam_lp (fl_fam l f c r) | SSC _ _ _ _ _ => fun _ _ _ _ => NInf end)
                 (fun _ _ _ => 0))
  | SSum c co rr lg => MSum (skel c) co rr lg
  | SSigned c co rr _ => MSum (skel c) co rr (fun _ _ _ _ => 0)
  | SCat d2 sc cs => MCat d2 sc (map skel cs)
  | SProduct c => MProduct (skel c)
  end.
Definition sfeat (m : smod) : nat := features (out_shape (skel m)).
Definition schan (m : smod) : nat := channels (out_shape (skel m)).
Definition sdim (d2 : bool) (m : smod) : nat := if d2 then schan m else sfeat m.

(** Position of index [i] in a concatenation of blocks: the block and the offset
    inside it (torch.cat). *)
Fixpoint pick {A} (len : A -> nat) (l : list A) (i : nat) : option (A * nat) :=
  match l with
  | [] => None
  | a :: r => if Nat.ltb i (len a) then Some (a, i) else pick len r (i - len a)
  end.

Definition T3 (A : Type) := nat -> nat -> nat -> A.
(** torch.cat of tensors (F,C,R) along features ([d2 = false]) or channels *)
Definition catp {A} (d : A) (d2 : bool) (vs : list (nat * T3 A)) : T3 A := fun f c r =>
  match pick fst vs (if d2 then c else f) with
  | Some (g, k) => if d2 then snd g f k r else snd g k c r
  | None => d
  end.

Definition mapR {A B} (g : A -> result B) : list A -> result (list B) :=
  fix go l := match l with
              | [] => Ok []
              | a :: r => bind (g a) (fun b => bind (go r) (fun bs => Ok (b :: bs)))
              end.

(** log_likelihood: leaf.py 425-477, sum.py 264-280, cat.py 98-106, product.py
    73-82; SignedSum and SignedCategorical raise (signed_sum.py 95-99,
    signed_categorical.py 93-97). *)
Fixpoint mll (x : row) (m : smod) {struct m} : result (T3 lval) :=
  match m with
  | SLeaf (SFam l) => fleaf_ll l x
  | SLeaf (SSC _ _ _ _ _) => Err
  | SSum c co rr lg =>
      bind (mll x c) (fun t => Ok (fun f o r =>
        lse (schan c) (fun ci => ladd (t f ci r) (Fin (log_softmax (schan c) (fun i => lg f i o r) ci)))))
  | SSigned _ _ _ _ => Err
  | SCat d2 _ cs => bind (mapR (mll x) cs) (fun ts => Ok (catp NInf d2 (combine (map (sdim d2) cs) ts)))
  | SProduct c => bind (mll x c) (fun t => Ok (fun _ o r => ladds (sfeat c) (fun f => t f o r)))
  end.

(** float -> long conversion of torch: truncation towards zero *)
Definition trunc (a : R) : Z := if Rle_dec 0 a then Int_part a else (- Int_part (- a))%Z.

Definition tiny : R := / 10 ^ 30.

(** signed_categorical.py 118-166 *)
Definition scat_eval (sc : scope) (K : nat) (w : nat -> nat -> nat -> nat -> R) (x : row) : result (T3 (lval * Z)) :=
  if forallb (fun v => match x v with
                       | None => false (* 137-140 *)
                       | Some a => Z.leb 0 (trunc a) && Z.ltb (trunc a) (Z.of_nat K) (* 142-144 *)
                       end) (query sc)
  then Ok (fun f c r =>
         match x (nth f (query sc) 0%nat) with
         | Some a => let v := w f c r (Z.to_nat (trunc a)) in (Fin (ln (Rmax (Rabs v) tiny)), sgn v)
         | None => (NInf, 0%Z)
         end)
  else Err.

Definition plus1 (t : T3 lval) : T3 (lval * Z) := fun f c r => (t f c r, 1%Z).

Fixpoint zprod (n : nat) (s : nat -> Z) : Z := match n with O => 1%Z | S n => (zprod n s * s n)%Z end.

(** socs.py 34-79 (_signed_eval); SignedSum: signed_sum.py 118-172 *)
Fixpoint seval (x : row) (m : smod) {struct m} : result (T3 (lval * Z)) :=
  match m with
  | SLeaf (SFam l) => bind (fleaf_ll l x) (fun t => Ok (plus1 t)) (* 74-79 *)
  | SLeaf (SSC sc _ _ K w) => scat_eval sc K w x (* 44-47 *)
  | SSum _ _ _ _ => bind (mll x m) (fun t => Ok (plus1 t)) (* 50-55 *)
  | SSigned c co rr w =>
      bind (seval x c) (fun t => Ok (fun f o r =>
        slse (schan c) (fun ci =>
          (ladd (fst (t f ci r)) (Fin (ln (Rmax (Rabs (w f ci o r)) tiny))),
           (sgn (w f ci o r) * snd (t f ci r))%Z))))
  | SCat d2 _ cs => bind (mapR (seval x) cs) (fun ts => Ok (catp (NInf, 0%Z) d2 (combine (map (sdim d2) cs) ts))) (* 57-63 *)
  | SProduct c =>
      bind (seval x c) (fun t => Ok (fun _ o r =>
        (ladds (sfeat c) (fun f => fst (t f o r)), zprod (sfeat c) (fun f => snd (t f o r))))) (* 65-72 *)
  end.

(** ** inner_product_core.py *)

(** torch.isclose(b1, b2) with the default tolerances *)
Definition isclose (a b : R) : bool := rle (Rabs (a - b)) (/ 10 ^ 8 + / 10 ^ 5 * Rabs b).

(** the modified Bessel function torch.special.i0 *)
Definition bessel_i0 (z : R) : R := Series (fun k => ((z / 2) ^ 2) ^ k / INR (fact k) ^ 2).

(** inner_product_core.py 63-67: log pmf of the binomial at k <= n *)
Definition binom_logpmf (k n : nat) (p : R) : R :=
  lfact n - lfact k - lfact (n - k) + INR k * ln (Rmax p tiny) + INR (n - k) * ln (Rmax (1 - p) tiny).
(** inner_product_core.py 70-77, at k inside the support *)
Definition hyper_logpmf (k K N n : nat) : R :=
  (lfact K - lfact k - lfact (K - k)) + (lfact (N - K) - lfact (n - k) - lfact (N - K - (n - k)))
  - (lfact N - lfact n - lfact (N - n)).

(** leaf_inner_product at one pair of entries: inner_product_core.py 112-457.
    [None]: UnsupportedOperationError / ShapeError.  NegativeBinomial, LogNormal,
    Gamma, Histogram, PiecewiseLinear and CLTree are not modelled. The sums over
    [max_n]/[max_k] are written over the unmasked terms only. *)
Definition lip (a b : fam) : option R :=
  match a, b with
  | FNormal m1 l1, FNormal m2 l2 => (* 121-129 *)
      let var := exp l1 ^ 2 + exp l2 ^ 2 in
      Some (exp (- / 2 * ln (2 * PI * var) + - (m1 - m2) ^ 2 / (2 * var)))
  | FBernoulli l1, FBernoulli l2 => (* 131-134 *)
      let p1 := sigmoid l1 in let p2 := sigmoid l2 in Some (p1 * p2 + (1 - p1) * (1 - p2))
  | FCategorical K1 g1, FCategorical K2 g2 => (* 136-141 *)
      if Nat.eqb K1 K2 then Some (bsum K1 (fun k => softmax K1 g1 k * softmax K2 g2 k)) else None
  | FExponential l1, FExponential l2 => (* 165-168 *)
      Some (exp l1 * exp l2 / Rmax (exp l1 + exp l2) tiny)
  | FLaplace m1 l1, FLaplace m2 l2 => (* 170-182 *)
      let b1 := Rmax (exp l1) tiny in let b2 := Rmax (exp l2) tiny in
      let d := Rabs (m1 - m2) in
      let e1 := exp (- d / b1) in let e2 := exp (- d / b2) in
      let tails := (e1 + e2) / (4 * (b1 + b2)) in
      Some (if isclose b1 b2 then tails + e1 * d / (4 * b1 ^ 2) else tails + (e1 - e2) / (4 * (b1 - b2)))
  | FPoisson l1, FPoisson l2 => (* 197-202 *)
      Some (exp (- (exp l1 + exp l2)) * bessel_i0 (2 * sqrt (exp l1 * exp l2)))
  | FUniform a1 b1, FUniform a2 b2 => (* 224-234 *)
      Some (Rmax (Rmin b1 b2 - Rmax a1 a2) 0 / (Rmax (b1 - a1) tiny * Rmax (b2 - a2) tiny))
  | FGeometric l1, FGeometric l2 => (* 236-242 *)
      let p1 := sigmoid l1 in let p2 := sigmoid l2 in
      Some (p1 * p2 / Rmax (1 - (1 - p1) * (1 - p2)) tiny)
  | FBinomial n1 l1, FBinomial n2 l2 => (* 244-257 *)
      Some (bsum (S (Nat.min n1 n2)) (fun k => exp (binom_logpmf k n1 (sigmoid l1) + binom_logpmf k n2 (sigmoid l2))))
  | FHyper K1 N1 n1, FHyper K2 N2 n2 => (* 259-284; allclose(N1, N2) on integers below 10^5 is equality *)
      if Nat.eqb N1 N2
      then Some (bsum (S (Nat.min (Nat.min n1 K1) (Nat.min n2 K2))) (fun k =>
             if (Nat.leb (n1 + K1 - N1) k && Nat.leb (n2 + K2 - N1) k)%bool
             then exp (hyper_logpmf k K1 N1 n1 + hyper_logpmf k K2 N1 n2) else 0))
      else None
  | _, _ => None
  end.

(** one pair of entries of two leaves, SignedCategorical included: 143-163 *)
Definition slip (la lb : sleaf) (f ca cb r : nat) : option R :=
  match la, lb with
  | SFam a, SFam b => lip (fl_fam a f ca r) (fl_fam b f cb r)
  | SSC _ _ _ K w, SSC _ _ _ K' w' =>
      if Nat.eqb K K' then Some (bsum K (fun k => w f ca r k * w' f cb r k)) else None
  | SSC _ _ _ K w, SFam b =>
      match fl_fam b f cb r with
      | FCategorical K' g => if Nat.eqb K K' then Some (bsum K (fun k => w f ca r k * softmax K' g k)) else None
      | _ => None
      end
  | SFam a, SSC _ _ _ K w =>
      match fl_fam a f ca r with
      | FCategorical K' g => if Nat.eqb K K' then Some (bsum K (fun k => softmax K' g k * w f cb r k)) else None
      | _ => None
      end
  end.

Definition T4 := nat -> nat -> nat -> nat -> R.
Definition slipv (la lb : sleaf) : T4 := fun f ca cb r => match slip la lb f ca cb r with Some v => v | None => 0 end.

(** every entry of the two leaves is a supported pair *)
Definition slip_ok (la lb : sleaf) : bool :=
  allb (length (query (sl_scope la))) (fun f => allb (sl_ch la) (fun ca => allb (sl_ch lb) (fun cb =>
    allb (sl_rep la) (fun r => match slip la lb f ca cb r with Some _ => true | None => false end)))).

(** (input, weights) of a Sum or SignedSum; Sum.weights is the softmax of the
    logits (sum.py 199-207) *)
Definition as_sum (m : smod) : option (smod * (nat -> nat -> nat -> nat -> R)) :=
  match m with
  | SSum c _ _ lg => Some (c, fun f i o r => softmax (schan c) (fun j => lg f j o r) i)
  | SSigned c _ _ w => Some (c, w)
  | _ => None
  end.

(** einsum "fiar,fijr,fjbr->fabr": 583-585 *)
Definition sum_rule (n1 n2 : nat) (wa wb : nat -> nat -> nat -> nat -> R) (k : T4) : T4 := fun f a b r =>
  bsum n1 (fun i => bsum n2 (fun j => wa f i a r * k f i j r * wb f j b r)).

(** inner_product_matrix on supported pairs, with the value at leaf pairs
    abstracted: 506-588 *)
Fixpoint ip2 (L : sleaf -> sleaf -> T4) (a b : smod) {struct a} : T4 :=
  match a with
  | SLeaf la => match b with SLeaf lb => L la lb | _ => fun _ _ _ _ => 0 end
  | SSum c _ _ lg =>
      match as_sum b with
      | Some (d, wb) => sum_rule (schan c) (schan d) (fun f i o r => softmax (schan c) (fun j => lg f j o r) i) wb (ip2 L c d)
      | None => fun _ _ _ _ => 0
      end
  | SSigned c _ _ w =>
      match as_sum b with
      | Some (d, wb) => sum_rule (schan c) (schan d) w wb (ip2 L c d)
      | None => fun _ _ _ _ => 0
      end
  | SCat d2 _ cs =>
      match b with
      | SCat _ _ ds =>
          let gs := map (fun c => (sdim d2 c, ip2 L c)) cs in
          if d2
          then fun f ca cb r => (* 530-565 *)
                 match pick fst gs ca, pick (sdim true) ds cb with
                 | Some (g, i), Some (d, j) => snd g d f i j r
                 | _, _ => 0
                 end
          else fun f ca cb r => (* 516-528 *)
                 match pick (fun p => fst (fst p)) (combine gs ds) f with
                 | Some (p, k) => snd (fst p) (snd p) k ca cb r
                 | None => 0
                 end
      | _ => fun _ _ _ _ => 0
      end
  | SProduct c =>
      match b with
      | SProduct d => fun _ ca cb r => bprod (sfeat c) (fun f => ip2 L c d f ca cb r) (* 569-576 *)
      | _ => fun _ _ _ _ => 0
      end
  end.

(** the pairs inner_product_matrix accepts: 488-492 and the case distinctions of
    506-592 *)
Definition same_header (a b : smod) : bool :=
  (scope_eqb (scope_of (skel a)) (scope_of (skel b)) && Nat.eqb (sfeat a) (sfeat b)
   && Nat.eqb (repetitions (out_shape (skel a))) (repetitions (out_shape (skel b))))%bool.
Fixpoint ip_ok (a b : smod) {struct a} : bool :=
  (same_header a b &&
   match a with
   | SLeaf la => match b with SLeaf lb => slip_ok la lb | _ => false end
   | SSum c _ _ _ => match as_sum b with Some (d, _) => ip_ok c d | None => false end
   | SSigned c _ _ _ => match as_sum b with Some (d, _) => ip_ok c d | None => false end
   | SCat d2 _ cs =>
       match b with
       | SCat d2' _ ds =>
           Bool.eqb d2 d2' &&
           let gs := map ip_ok cs in
           if d2 then forallb (fun g => forallb g ds) gs
           else Nat.eqb (length cs) (length ds) && forallb (fun p => fst p (snd p)) (combine gs ds)
       | _ => false
       end
   | SProduct c => match b with SProduct d => ip_ok c d | _ => false end
   end)%bool.

Definition inner_product_matrix (a b : smod) : result T4 := if ip_ok a b then Ok (ip2 slipv a b) else Err.

(** inner_product_core.py 595-608 *)
Definition log_self_ip (m : smod) : result R :=
  if (Nat.eqb (sfeat m) 1 && Nat.eqb (schan m) 1 && Nat.eqb (repetitions (out_shape (skel m))) 1)%bool
  then bind (inner_product_matrix m m) (fun k => Ok (ln (Rmax (Rmax (k 0 0 0 0)%nat 0) tiny)))
  else Err.

(** ** socs.py *)

(** socs.py 96-116 *)
Definition shape_eqb (s t : shape) : bool :=
  (Nat.eqb (features s) (features t) && Nat.eqb (channels s) (channels t) && Nat.eqb (repetitions s) (repetitions t))%bool.
Definition mk_socs (cs : list smod) : result (list smod) :=
  match cs with
  | [] => Err
  | c0 :: _ =>
      if forallb (fun c => all_equal [scope_of (skel c0); scope_of (skel c)]
                           && shape_eqb (out_shape (skel c)) (out_shape (skel c0)))%bool cs
      then Ok cs else Err
  end.

(** socs.py 122-142: Z[f,c,r] *)
Definition partition (cs : list smod) : result (T3 R) :=
  bind (mapR (fun c => inner_product_matrix c c) cs) (fun ks =>
    Ok (fun f c r => lsumR (map (fun k : T4 => k f c c r) ks))).

Definition ldouble (a : lval) : lval := match a with NInf => NInf | Fin x => Fin (2 * x) end.
Definition lsub_R (a : lval) (z : R) : lval := match a with NInf => NInf | Fin x => Fin (x - z) end.

(** socs.py 144-155 *)
Definition socs_ll (cs : list smod) (x : row) : result (T3 lval) :=
  bind (mapR (seval x) cs) (fun ts =>
  bind (partition cs) (fun Z =>
    Ok (fun f c r =>
      lsub_R (lse (length ts) (fun i => ldouble (fst (nth i ts (fun _ _ _ => (NInf, 0%Z)) f c r))))
             (ln (Rmax (Z f c r) tiny))))).

(** ** build_socs.py *)

(** build_abs_weight_proposal 104-166: SignedSum -> Sum with weights
    proportional to |w| + eps (123-132), SignedCategorical -> Categorical with
    probabilities proportional to |w| + eps (139-148); as logits.  The Sum
    constructor rejects out_channels <> 1 together with weights (sum.py
    139-141), so a SignedSum with several output channels fails. *)
Definition abs_probs (n : nat) (w : nat -> R) (eps : R) (i : nat) : R :=
  (Rabs (w i) + eps) / Rmax (bsum n (fun j => Rabs (w j) + eps)) (/ 10 ^ 12).

Definition proposal_leaf (eps : R) (l : sleaf) : sleaf :=
  match l with
  | SFam l => SFam l
  | SSC sc ch rep K w => SFam (mk_fleaf sc ch rep (fun f c r => FCategorical K (fun k => ln (abs_probs K (w f c r) eps k))))
  end.
Fixpoint proposal (eps : R) (m : smod) {struct m} : result smod :=
  match m with
  | SLeaf l => Ok (SLeaf (proposal_leaf eps l))
  | SSum c co rr lg => bind (proposal eps c) (fun c' => Ok (SSum c' co rr lg))
  | SSigned c co rr w =>
      if negb (Nat.eqb co 1) then Err
      else bind (proposal eps c) (fun c' => Ok (SSum c' co rr (fun f i o r => ln (abs_probs (schan c) (fun j => w f j o r) eps i))))
  | SCat d2 sc cs => bind (mapR (proposal eps) cs) (fun cs' => Ok (SCat d2 sc cs'))
  | SProduct c => bind (proposal eps c) (fun c' => Ok (SProduct c'))
  end.

(** build_complex_socs: build_socs.py 169-196 *)
Definition build_complex_socs (re im : smod) : result (list smod) :=
  if negb (scope_eqb (scope_of (skel re)) (scope_of (skel im))) then Err
  else if negb (shape_eqb (out_shape (skel re)) (out_shape (skel im))) then Err
  else mk_socs [re; im].

(** build_socs 63-98 with signed=True: the possible copies of the template, for
    arbitrary sign flips and noise (63-83): every Sum becomes a SignedSum of the
    same shape with arbitrary weights, everything else is copied. *)
Inductive signed_copy : smod -> smod -> Prop :=
| sc_leaf l : signed_copy (SLeaf l) (SLeaf l)
| sc_sum c c' co rr lg w : signed_copy c c' -> signed_copy (SSum c co rr lg) (SSigned c' co rr w)
| sc_signed c c' co rr w : signed_copy c c' -> signed_copy (SSigned c co rr w) (SSigned c' co rr w)
| sc_cat d2 sc cs cs' : Forall2 signed_copy cs cs' -> signed_copy (SCat d2 sc cs) (SCat d2 sc cs')
| sc_product c c' : signed_copy c c' -> signed_copy (SProduct c) (SProduct c').

(** ** Metropolis-Hastings step of SOCS._sample: socs.py 290-303 *)

(** extended reals for log_alpha *)
Inductive xr := XNan | XMinf | XFin (x : R) | XPinf.
Definition xsub (a b : lval) : xr :=
  match a, b with
  | NInf, NInf => XNan
  | NInf, Fin _ => XMinf
  | Fin _, NInf => XPinf
  | Fin x, Fin y => XFin (x - y)
  end.
Definition xadd (a b : xr) : xr :=
  match a, b with
  | XNan, _ | _, XNan | XMinf, XPinf | XPinf, XMinf => XNan
  | XMinf, _ | _, XMinf => XMinf
  | XPinf, _ | _, XPinf => XPinf
  | XFin x, XFin y => XFin (x + y)
  end.
(** 298: log_alpha *)
Definition log_alpha (t_x t_p q_x q_p : lval) : xr := xadd (xsub t_p t_x) (xsub q_x q_p).
(** 299-300: accept with u uniform on (0,1) — [u < min(log_alpha, 0)] has
    probability min(1, exp log_alpha); a NaN comparison is false *)
Definition accept_prob (la : xr) : R :=
  match la with XNan | XMinf => 0 | XPinf => 1 | XFin x => Rmin 1 (exp x) end.

(** socs.py 27-31 *)
Fixpoint contains_signed (m : smod) : bool :=
  match m with
  | SLeaf (SFam _) => false
  | SLeaf (SSC _ _ _ _ _) | SSigned _ _ _ _ => true
  | SSum c _ _ _ | SProduct c => contains_signed c
  | SCat _ _ cs => existsb contains_signed cs
  end.

(** One iteration of 293-303 on a finite set of [n] states with log-target [lt]
    and log-proposal [lq]: propose y from the proposal, then accept. *)
Definition mh_step (n : nat) (lt lq : nat -> lval) (x : nat) : prog nat :=
  Choose n (fun y => pr (lq y)) (fun y =>
    let a := accept_prob (log_alpha (lt x) (lt y) (lq x) (lq y)) in
    Choose 2 (fun i => if Nat.eqb i 0 then a else 1 - a) (fun i => Ret (if Nat.eqb i 0 then y else x))).
Fixpoint mh_loop (n : nat) (lt lq : nat -> lval) (steps x : nat) : prog nat :=
  match steps with O => Ret x | S k => pbind (mh_step n lt lq x) (mh_loop n lt lq k) end.
(** 290-303: the chain starts at a draw from the proposal *)
Definition mh_chain (n : nat) (lt lq : nat -> lval) (steps : nat) : prog nat :=
  Choose n (fun x => pr (lq x)) (fun x => mh_loop n lt lq steps x).

(** 281-288: the proposal of a component *)
Definition proposal_of (m : smod) : result smod := if contains_signed m then proposal (/ 10 ^ 8) m else Ok m.

(** Tables of log-target (265-270) and log-proposal (260-263) over the rows
    [xs]; the output is scalar. *)
Definition tables (xs : list row) (m : smod) : result ((nat -> lval) * (nat -> lval)) :=
  bind (proposal_of m) (fun q =>
  bind (mapR (fun x => seval x m) xs) (fun ts =>
  bind (mapR (fun x => mll x q) xs) (fun qs =>
    Ok (fun y => ldouble (fst (nth y ts (fun _ _ _ => (NInf, 0%Z)) 0%nat 0%nat 0%nat)),
        fun y => nth y qs (fun _ _ _ => NInf) 0%nat 0%nat 0%nat)))).

(** SOCS._sample 218-307 for one row, when the states of the proposals are the
    rows [xs]; the result is the index of a state.  Simplification: an
    evaluation error at any state is reported up front. *)
Definition socs_sample (xs : list row) (cs : list smod) (burn_in steps : nat) : result (prog nat) :=
  if forallb (fun m => shape_eqb (out_shape (skel m)) (mkShape 1 1 1)) cs (* 236-240 *)
  then
    bind (mapR log_self_ip cs) (fun zs => (* 245-247 *)
    if Nat.eqb steps 0 then Err (* 254-255 *) else
    bind (mapR (tables xs) cs) (fun tabs =>
      Ok (Choose (length cs) (softmax (length cs) (fun i => nth i zs 0)) (fun i => (* 248 *)
            let t := nth i tabs (fun _ => NInf, fun _ => NInf) in
            mh_chain (length xs) (fst t) (snd t) (burn_in + steps)))))
  else Err.

(** ** SOCS.marginalize *)

(** Component.marginalize: leaf.py 1080-1119, sum.py 436-521, cat.py 180-223,
    product.py 141-186 as in MargModel; SignedSum raises (signed_sum.py 110-116);
    SignedCategorical returns None when any of its variables is marginalised
    (signed_categorical.py 108-116).  The weights handed to the new Sum are a
    softmax, so its constructor's checks pass; they are stored as logits ln w. *)
Fixpoint smarg (S : list nat) (prune : bool) (m : smod) {struct m} : result (option smod) :=
  match m with
  | SLeaf (SFam l) =>
      let idx := kidx S (map (fun v => [v]) (query (fl_scope l))) in
      if nonempty (kept S (query (fl_scope l)))
      then Ok (Some (SLeaf (SFam (mk_fleaf (mkScope (kept S (query (fl_scope l))) []) (fl_ch l) (fl_rep l)
                                    (fun f => fl_fam l (nth f idx 0%nat))))))
      else Ok None
  | SLeaf (SSC sc _ _ _ _) => if touches S sc then Ok None else Ok (Some m)
  | SSum c co rr lg =>
      let w := fun f i o r => ln (softmax (schan c) (fun j => lg f j o r) i) in
      if covers S (scope_of (skel c)) then Ok None
      else if touches S (scope_of (skel c)) then
        bind (smarg S prune c) (fun oc =>
          match oc with
          | None => Ok None
          | Some c' => if (Nat.ltb (fts_cols (skel c)) rr || Nat.eqb rr 0)%bool then Err
                       else let idx := kidx S (fts (skel c)) in
                            Ok (Some (SSum c' co rr (fun f => w (nth f idx 0%nat))))
          end)
      else Ok (Some (SSum c co rr w))
  | SSigned _ _ _ _ => Err
  | SCat d2 sc cs =>
      let build cs' := bind (mk_cat d2 (map skel cs')) (fun m' => Ok (Some (SCat d2 (scope_of m') cs'))) in
      if touches S sc then
        bind ((fix go (l : list smod) : result (list smod) :=
                 match l with
                 | [] => Ok []
                 | c :: rest =>
                     bind (smarg S prune c) (fun oc =>
                     bind (go rest) (fun r => Ok (match oc with Some c' => c' :: r | None => r end)))
                 end) cs) (fun cs' =>
          match cs' with
          | [] => Ok None
          | [c] => if prune then Ok (Some c) else build [c]
          | _ => build cs'
          end)
      else Ok (Some m)
  | SProduct c =>
      if covers S (scope_of (skel c)) then Ok None
      else
        bind (if touches S (scope_of (skel c)) then smarg S prune c else Ok (Some c)) (fun oc =>
          match oc with
          | None => Ok None
          | Some c' => if (prune && Nat.eqb (sfeat c') 1)%bool then Ok (Some c') else Ok (Some (SProduct c'))
          end)
  end.

(** socs.py 166-183 *)
Definition socs_marginalize (S : list nat) (prune : bool) (cs : list smod) : result (option (list smod)) :=
  bind ((fix go (l : list smod) : result (option (list smod)) :=
           match l with
           | [] => Ok (Some [])
           | c :: rest => bind (smarg S prune c) (fun oc =>
               match oc with
               | None => Ok None
               | Some c' => bind (go rest) (fun r => Ok (match r with Some r => Some (c' :: r) | None => None end))
               end)
           end) cs) (fun r =>
    match r with None => Ok None | Some cs' => bind (mk_socs cs') (fun s => Ok (Some s)) end).
