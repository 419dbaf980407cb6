(** Specification vocabulary for triple products. *)
From Coq Require Import List Arith Reals.
From Verif Require Import Base ScopeModel CircuitModel Integral LeafModel SignedModel SignedSpec TripleModel.
Import ListNotations.
Local Open Scope R_scope.

(** Parameters of three leaves inside the range where the code's clamps are inactive. *)
Definition exact_params3 (a b c : fam) : Prop :=
  match a, b, c with
  | FNormal _ l1, FNormal _ l2, FNormal _ l3 => tiny <= exp l1 /\ tiny <= exp l2 /\ tiny <= exp l3
  | FUniform a1 b1, FUniform a2 b2, FUniform a3 b3 => tiny <= b1 - a1 /\ tiny <= b2 - a2 /\ tiny <= b3 - a3
  | FGeometric l1, FGeometric l2, FGeometric l3 => tiny <= 1 - (1 - sigmoid l1) * (1 - sigmoid l2) * (1 - sigmoid l3)
  | FBinomial _ l1, FBinomial _ l2, FBinomial _ l3 =>
      tiny <= sigmoid l1 <= 1 - tiny /\ tiny <= sigmoid l2 <= 1 - tiny /\ tiny <= sigmoid l3 <= 1 - tiny
  | _, _, _ => True
  end.
Definition exact_leaves3 (la lb lc : sleaf) : Prop :=
  match la, lb, lc with
  | SFam a, SFam b, SFam c => forall f ca cb cc r,
      (f < length (query (fl_scope a)))%nat -> (ca < fl_ch a)%nat -> (cb < fl_ch b)%nat -> (cc < fl_ch c)%nat -> (r < fl_rep a)%nat ->
      exact_params3 (fl_fam a f ca r) (fl_fam b f cb r) (fl_fam c f cc r)
  | _, _, _ => True
  end.

(** the unnormalised ExpSOCS function m(x) * sum_i c_i(x)^2 *)
Definition expsq (e : expsocs) (x : row) : R := fun_of (x_mono e) x 0%nat 0%nat 0%nat * squares (x_comps e) x 0%nat 0%nat 0%nat.

(** What the theorems ask of the circuits of an ExpSOCS. *)
Record expcomp (D : nat -> domain) (e : expsocs) : Prop := {
  xc_mono : component 1 D (x_mono e);
  xc_comps : Forall (component 1 D) (x_comps e);
  xc_exact : forall m la lb lc, In m (x_comps e) -> In la (sleaves m) -> In lb (sleaves m) -> In lc (sleaves (x_mono e)) ->
    query (sl_scope la) = query (sl_scope lb) -> query (sl_scope la) = query (sl_scope lc) -> exact_leaves3 la lb lc }.
