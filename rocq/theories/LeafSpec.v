(** Specification vocabulary for the leaf families (C29-C31, C81-C88). *)
From Coq Require Import List Arith Bool Reals.
From Verif Require Import Base CircuitModel Integral LeafModel.
Import ListNotations.
Local Open Scope R_scope.

(** the set a family's variable ranges over *)
Definition range_of (fm : fam) : domain :=
  match fm with
  | FBernoulli _ => DFin [0; 1]
  | FCategorical K _ => DFin (map INR (seq 0 K))
  | FBinomial n _ => DFin (map INR (seq 0 (S n)))
  | FHyper _ _ n => DFin (map INR (seq 0 (S n)))
  | FGeometric _ | FPoisson _ | FNegBin _ _ => DNat
  | FUniform _ _ | FExponential _ | FLaplace _ _ | FNormal _ _ => DReal
  end.

Definition discrete (fm : fam) : Prop := range_of fm <> DReal.

(** same family and same fixed (not learned) parameters *)
Definition same_family (a b : fam) : Prop :=
  match a, b with
  | FBernoulli _, FBernoulli _ => True
  | FCategorical K _, FCategorical K' _ => K = K'
  | FBinomial n _, FBinomial n' _ => n = n'
  | FGeometric _, FGeometric _ => True
  | FPoisson _, FPoisson _ => True
  | FNegBin r _, FNegBin r' _ => r = r'
  | FExponential _, FExponential _ => True
  | FLaplace _ _, FLaplace _ _ => True
  | FNormal _ _, FNormal _ _ => True
  | _, _ => False
  end.

(** (weight, value) samples inside the support, with positive weights *)
Definition sample_ok (fm : fam) (l : list (R * R)) : Prop :=
  l <> [] /\ Forall (fun p => 0 < fst p /\ supp fm (snd p) = true) l.

(** weighted log-likelihood of samples that all have positive density *)
Definition score (fm : fam) (a : R) : R := match fam_lp fm a with Fin x => x | NInf => 0 end.
Definition wll (fm : fam) (l : list (R * R)) : R := lsumR (map (fun p => fst p * score fm (snd p)) l).

(** the samples do not force a parameter to the boundary of its range *)
Definition occurs (P : R -> Prop) (l : list (R * R)) : Prop := exists p, In p l /\ P (snd p).
Definition weight_of (P : R -> bool) (l : list (R * R)) : R := lsumR (map fst (filter (fun p => P (snd p)) l)).
Definition req (a b : R) : bool := if Req_EM_T a b then true else false.
Definition interior (fm : fam) (l : list (R * R)) : Prop :=
  match fm with
  | FBernoulli _ => occurs (fun a => a = 0) l /\ occurs (fun a => a = 1) l
  | FCategorical K _ => forall k, (k < K)%nat -> / 10000000000 * weight_of (fun _ => true) l <= weight_of (fun a => req a (INR k)) l
  | FBinomial n _ => occurs (fun a => 0 < a) l /\ occurs (fun a => a < INR n) l
  | FGeometric _ | FPoisson _ | FExponential _ => occurs (fun a => 0 < a) l
  | FNegBin r _ => (0 < r)%nat /\ occurs (fun a => 0 < a) l
  | FNormal _ _ => exists a b, a <> b /\ occurs (eq a) l /\ occurs (eq b) l
  | FLaplace _ _ => (exists a b, a <> b /\ occurs (eq a) l /\ occurs (eq b) l) /\ (forall p q, In p l -> In q l -> fst p = fst q)
  | FHyper _ _ _ | FUniform _ _ => False
  end.

(** a variable with domain [d] may be modelled by [fm]: the domain is the family's
    range, or the family is discrete and the domain is the naturals *)
Definition fits (d : domain) (fm : fam) : Prop := d = range_of fm \/ (discrete fm /\ d = DNat).

(** a circuit leaf of one of the families, over variables of fitting domain *)
Definition family_leaf (D : nat -> domain) (l : leaf) : Prop :=
  exists fl mode, l = fl_leaf fl mode /\
    forall f c r, (f < length (ScopeModel.query (fl_scope fl)))%nat -> (c < fl_ch fl)%nat -> (r < fl_rep fl)%nat ->
      fam_ok (fl_fam fl f c r) = true /\ fits (D (nth f (ScopeModel.query (fl_scope fl)) 0%nat)) (fl_fam fl f c r).

(** all channels and repetitions of a feature have the same support *)
Definition common_support (l : fleaf) : Prop :=
  forall f c r, (f < length (ScopeModel.query (fl_scope l)) /\ c < fl_ch l /\ r < fl_rep l)%nat ->
    forall a, supp (fl_fam l f c r) a = supp (fl_fam l f 0 0)%nat a.

(** the value written into missing cells lies in the support (a categorical leaf
    needs at least two categories) *)
Definition imputable (fm : fam) : Prop := match fm with FCategorical K _ => (1 < K)%nat | _ => True end.
