(** Small specification vocabulary for the circuit properties. *)
From Coq Require Import List Arith.
From Verif Require Import Base ScopeModel CircuitModel.
Import ListNotations.

(** [n] occurs in the circuit [m] *)
Inductive node_of : module -> module -> Prop :=
| node_refl m : node_of m m
| node_sum n c co rr lg : node_of n c -> node_of n (MSum c co rr lg)
| node_product n c : node_of n c -> node_of n (MProduct c)
| node_cat n c d2 sc cs : In c cs -> node_of n c -> node_of n (MCat d2 sc cs).

(** the variables of a module *)
Definition vars (m : module) (v : nat) : Prop := In v (query (scope_of m)).

(** pairwise disjoint variables, by position *)
Definition disjoint_inputs (cs : list module) : Prop :=
  forall i j d, (i < length cs)%nat -> (j < length cs)%nat -> i <> j ->
    forall v, vars (nth i cs d) v -> ~ vars (nth j cs d) v.

(** equal variables *)
Definition equal_inputs (cs : list module) : Prop :=
  forall c c', In c cs -> In c' cs -> forall v, vars c v <-> vars c' v.

Definition union_of_inputs (m : module) (cs : list module) : Prop :=
  forall v, vars m v <-> exists c, In c cs /\ vars c v.

(** node-wise smoothness / decomposability / scope union.  A Product multiplies
    the features of its input, so the features' scopes must be disjoint. *)
Definition node_good (m : module) : Prop :=
  match m with
  | MLeaf l => query (l_scope l) <> [] /\ NoDup (query (l_scope l))
  | MSum c _ _ _ => forall v, vars m v <-> vars c v
  | MCat true _ cs => cs <> [] /\ equal_inputs cs /\ union_of_inputs m cs
  | MCat false _ cs => cs <> [] /\ disjoint_inputs cs /\ union_of_inputs m cs
  | MProduct c => (forall v, vars m v <-> vars c v) /\
      (forall f g v, (f < features (out_shape c))%nat -> (g < features (out_shape c))%nat -> f <> g ->
         In v (nth f (fts c) []) -> ~ In v (nth g (fts c) [])) /\
      (forall v, vars m v <-> exists f, (f < features (out_shape c))%nat /\ In v (nth f (fts c) []))
  end.

(** every leaf and every Sum has [R] repetitions *)
Fixpoint uniform (R : nat) (m : module) : Prop :=
  match m with
  | MLeaf l => l_rep l = R
  | MSum c _ rr _ => uniform R c /\ rr = R
  | MCat _ _ cs => (fix go (l : list module) : Prop := match l with [] => True | c :: r => uniform R c /\ go r end) cs
  | MProduct c => uniform R c
  end.
