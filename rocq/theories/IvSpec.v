(** Specification vocabulary for interval evidence (C32, C96, C97). *)
From Coq Require Import List Arith Bool Reals.
From Verif Require Import Base ScopeModel CircuitModel CircuitMarg Integral LeafModel LeafSpec IvModel.
Import ListNotations.
Local Open Scope R_scope.

(** the value [a] satisfies a lower / upper bound; NaN is no bound *)
Definition above (lo : fl) (a : R) : Prop := match lo with Nan | Minf => True | Num x => x <= a | Pinf => False end.
Definition below (hi : fl) (a : R) : Prop := match hi with Nan | Pinf => True | Num x => a <= x | Minf => False end.
Definition inside (b : fl * fl) (a : R) : Prop := above (fst b) a /\ below (snd b) a.

(** indicator *)
Definition ind (P : Prop) (v : R) (w : R) : Prop := (P -> w = v) /\ (~ P -> w = 0).

(** [box_mass d g b p]: [g] summed over the values of [d] inside the interval [b] is [p] *)
Definition box_mass (d : domain) (g : R -> R) (b : fl * fl) (p : R) : Prop :=
  exists h, (forall a, ind (inside b a) (g a) (h a)) /\ sums d h p.

(** every cell of [vs] holds a value inside its interval *)
Definition in_box (ev : ivrow) (vs : list nat) (y : row) : Prop :=
  forall v, In v vs -> exists a, y v = Some a /\ inside (ev v) a.

(** [box_prob]: the probability that all of [vs] lie in their intervals *)
Definition box_prob (D : nat -> domain) (vs : list nat) (g : row -> R) (ev : ivrow) (P : R) : Prop :=
  exists h, (forall y, ind (in_box ev vs y) (g y) (h y)) /\ forall x, sums_over D vs h x P.

(** [fo] gives the family behind every leaf of the circuit *)
Definition leaf_families (D : nat -> domain) (fo : leaf -> fleaf) (m : module) : Prop :=
  Forall (fun l => (exists mode, l = fl_leaf (fo l) mode) /\
    forall f c r, (f < length (query (l_scope l)))%nat -> (c < l_ch l)%nat -> (r < l_rep l)%nat ->
      fam_ok (fl_fam (fo l) f c r) = true /\ fits (D (nth f (query (l_scope l)) 0%nat)) (fl_fam (fo l) f c r))
    (leaves_of m).

(** families whose interval score is implemented, with bounds they accept *)
Definition interval_capable (fm : fam) (b : fl * fl) : Prop :=
  match fm with
  | FBernoulli _ | FCategorical _ _ | FUniform _ _ | FNormal _ _ | FLaplace _ _ => True
  | FExponential _ =>
      (match fst b with Num x => 0 <= x | Pinf => True | _ => False end) /\
      (match snd b with Num x => 0 <= x | Minf => False | _ => True end)
  | _ => False
  end.
