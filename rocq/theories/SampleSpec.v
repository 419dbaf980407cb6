(** Meaning of randomised computations: expectations and possible outcomes. *)
From Coq Require Import List Arith.
From Verif Require Import Base ScopeModel CircuitModel CircuitSpec Integral SampleModel.
Import ListNotations.
Local Open Scope R_scope.

(** [expects D p g u]: [p] never raises (on branches of non-zero probability) and
    the expectation of [g] over its result exists and equals [u].  Variable [v]
    has domain [D v]; a draw from a leaf follows the leaf's density. *)
Fixpoint expects {A} (D : nat -> domain) (p : prog A) (g : A -> R) (u : R) : Prop :=
  match p with
  | Ret a => g a = u
  | Raise => False
  | Choose n w k => exists h, (forall i, (i < n)%nat -> w i <> 0 -> expects D (k i) g (h i)) /\
                              bsum n (fun i => w i * h i) = u
  | Draw l f c r k => exists h, (forall a, expects D (k a) g (h a)) /\
      sums (D (nth f (query (l_scope l)) 0%nat)) (fun a => pr (l_lp l f c r a) * h a) u
  end.

(** possible results *)
Inductive outcome {A} : prog A -> A -> Prop :=
| o_ret a : outcome (Ret a) a
| o_choose n w k i b : (i < n)%nat -> w i <> 0 -> outcome (k i) b -> outcome (Choose n w k) b
| o_draw l f c r k a b : outcome (k a) b -> outcome (Draw l f c r k) b.

(** an exception is possible *)
Inductive may_raise {A} : prog A -> Prop :=
| r_raise : may_raise Raise
| r_choose n w k i : (i < n)%nat -> w i <> 0 -> may_raise (k i) -> may_raise (Choose n w k)
| r_draw l f c r k a : may_raise (k a) -> may_raise (Draw l f c r k).

(** product over a list *)
Fixpoint lprod {A} (l : list A) (g : A -> R) : R := match l with [] => 1 | a :: r => g a * lprod r g end.

(** a test function of one cell; missing cells count 0 *)
Definition cell (h : R -> R) (o : option R) : R := match o with Some a => h a | None => 0 end.

(** product test function over the cells [vs] *)
Definition tests (h : nat -> R -> R) (vs : list nat) (y : row) : R := lprod vs (fun v => cell (h v) (y v)).

(** [vs] are the missing cells of [e] among the variables [q] *)
Definition missing (e : row) (q vs : list nat) : Prop := NoDup vs /\ forall v, In v vs <-> In v q /\ e v = None.

(** Probability of a (partial) row under the distribution that sample() draws
    from: channel 0 and repetition 0 of every output feature. *)
Definition joint (m : module) (y : row) : R := bprod (features (out_shape m)) (fun f => prob m y f 0 0).

(** indicator of the assignment [y], one variable at a time *)
Definition point (y : row) (v : nat) (a : R) : R :=
  match y v with Some b => if Req_EM_T a b then 1 else 0 | None => 0 end.

Definition is_sum (m : module) : Prop := match m with MSum _ _ _ _ => True | _ => False end.

(** every Sum gives the row [e] positive probability *)
Definition sums_positive (m : module) (e : row) : Prop :=
  forall n f c, node_of n m -> is_sum n -> (f < features (out_shape n))%nat -> (c < channels (out_shape n))%nat ->
    prob n e f c 0 <> 0.
