(** Specification vocabulary for signed circuits and squares (C28, C44-C46, C89...). *)
From Coq Require Import List Arith ZArith Bool Reals Sorted.
From Verif Require Import Base ScopeModel CircuitModel CircuitBasics CircuitSpec Integral LeafModel LeafSpec SignedModel.
Import ListNotations.
Local Open Scope R_scope.

(** The real number a (log-magnitude, sign) pair stands for. *)
Definition real_of (p : lval * Z) : R := IZR (snd p) * pr (fst p).

(** The function a leaf denotes: a density, or the weight of the state; a
    missing value is scored one. *)
Definition state_of (K : nat) (a : R) : option nat :=
  match asnat a with Some k => if Nat.ltb k K then Some k else None | None => None end.
Definition leaf_fun (l : sleaf) (x : row) (f c r : nat) : R :=
  match x (nth f (query (sl_scope l)) 0%nat) with
  | None => 1
  | Some a => match l with
              | SFam l => pr (fam_lp (fl_fam l f c r) a)
              | SSC _ _ _ K w => match state_of K a with Some k => w f c r k | None => 0 end
              end
  end.

(** The real-valued function a signed circuit denotes at each output position:
    sums are linear combinations, products multiply their input's features. *)
Fixpoint fun_of (m : smod) (x : row) (f c r : nat) {struct m} : R :=
  match m with
  | SLeaf l => leaf_fun l x f c r
  | SSum ch _ _ lg => bsum (schan ch) (fun i => softmax (schan ch) (fun j => lg f j c r) i * fun_of ch x f i r)
  | SSigned ch _ _ w => bsum (schan ch) (fun i => w f i c r * fun_of ch x f i r)
  | SCat d2 _ cs => catp 0 d2 (map (fun ch => (sdim d2 ch, fun_of ch x)) cs) f c r
  | SProduct ch => bprod (sfeat ch) (fun g => fun_of ch x g c r)
  end.

Fixpoint sleaves (m : smod) : list sleaf :=
  match m with
  | SLeaf l => [l]
  | SSum c _ _ _ | SSigned c _ _ _ | SProduct c => sleaves c
  | SCat _ _ cs => (fix go (l : list smod) : list sleaf := match l with [] => [] | c :: r => sleaves c ++ go r end) cs
  end.

(** SignedSum weights in the tree, with the position they belong to *)
Fixpoint signed_weights (P : R -> Prop) (m : smod) : Prop :=
  match m with
  | SLeaf _ => True
  | SSum c _ _ _ | SProduct c => signed_weights P c
  | SSigned c co rr w => signed_weights P c /\
      (forall f i o r, (f < sfeat c)%nat -> (i < schan c)%nat -> (o < co)%nat -> (r < rr)%nat -> P (w f i o r))
  | SCat _ _ cs => (fix go (l : list smod) : Prop := match l with [] => True | c :: r => signed_weights P c /\ go r end) cs
  end.
Definition state_weights (P : R -> Prop) (l : sleaf) : Prop :=
  match l with
  | SFam _ => True
  | SSC sc ch rep K w => forall f c r k, (f < length (query sc))%nat -> (c < ch)%nat -> (r < rep)%nat -> (k < K)%nat -> P (w f c r k)
  end.
Definition zero_or_normal (w : R) : Prop := w = 0 \/ / 10 ^ 30 <= Rabs w.
Definition normal (w : R) : Prop := / 10 ^ 30 <= Rabs w.

(** [P] holds of every sum and signed weight (below clamping thresholds nothing
    is claimed) *)
Definition exact_weights (m : smod) : Prop :=
  signed_weights zero_or_normal m /\ Forall (state_weights zero_or_normal) (sleaves m).

(** every column of the scope holds a value, SignedCategorical columns hold
    natural numbers *)
Definition complete (m : smod) (x : row) : Prop :=
  (forall v, In v (query (scope_of (skel m))) -> exists a, x v = Some a) /\
  Forall (fun l => match l with SFam _ => True | SSC sc _ _ _ _ => forall v, In v (query sc) -> exists k, x v = Some (INR k) end) (sleaves m).

(** all channels and repetitions of a leaf's feature have the same support *)
Definition uniform_support (m : smod) : Prop :=
  Forall (fun l => match l with SFam l => common_support l | SSC _ _ _ _ _ => True end) (sleaves m).

(** the leaves list their variables in ascending order *)
Definition sorted_leaves (m : smod) : Prop := Forall (fun l => StronglySorted lt (query (sl_scope l))) (sleaves m).

(** the leaves' families are admissible and fit the variables' domains *)
Definition sleaf_fits (D : nat -> domain) (l : sleaf) : Prop :=
  match l with
  | SFam l => forall f c r, (f < length (query (fl_scope l)))%nat -> (c < fl_ch l)%nat -> (r < fl_rep l)%nat ->
      fam_ok (fl_fam l f c r) = true /\ fits (D (nth f (query (fl_scope l)) 0%nat)) (fl_fam l f c r)
  | SSC sc _ _ K _ => (0 < K)%nat /\ forall f, (f < length (query sc))%nat -> D (nth f (query sc) 0%nat) = DFin (map INR (seq 0 K))
  end.

(** Parameters of the leaves inside the range where the code's clamps and
    tolerances are inactive. *)
Definition exact_params (a b : fam) : Prop :=
  match a, b with
  | FExponential l1, FExponential l2 => tiny <= exp l1 + exp l2
  | FLaplace _ l1, FLaplace _ l2 => tiny <= exp l1 /\ tiny <= exp l2 /\ (l1 = l2 \/ isclose (exp l1) (exp l2) = false)
  | FUniform a1 b1, FUniform a2 b2 => tiny <= b1 - a1 /\ tiny <= b2 - a2
  | FGeometric l1, FGeometric l2 => tiny <= 1 - (1 - sigmoid l1) * (1 - sigmoid l2)
  | FBinomial _ l1, FBinomial _ l2 => tiny <= sigmoid l1 <= 1 - tiny /\ tiny <= sigmoid l2 <= 1 - tiny
  | _, _ => True
  end.
Definition exact_leaves (la lb : sleaf) : Prop :=
  match la, lb with
  | SFam a, SFam b => forall f ca cb r,
      (f < length (query (fl_scope a)))%nat -> (ca < fl_ch a)%nat -> (cb < fl_ch b)%nat -> (r < fl_rep a)%nat ->
      exact_params (fl_fam a f ca r) (fl_fam b f cb r)
  | _, _ => True
  end.

(** A circuit the constructors accept, all repetitions equal to [Rr]. *)
Definition constructed (Rr : nat) (m : smod) : Prop := built (skel m) /\ uniform Rr (skel m).

(** the density of a sum of squares: sum_i c_i(x)^2 over a constant *)
Definition squares (cs : list smod) (x : row) (f c r : nat) : R := lsumR (map (fun m => fun_of m x f c r ^ 2) cs).

(** the log-magnitude alone is exact when no SignedCategorical weight is zero,
    or the root is a SignedSum *)
Definition strong_root (m : smod) : Prop :=
  match m with SSigned _ _ _ _ => True | _ => Forall (state_weights normal) (sleaves m) end.

(** (f, c, r) is an output position *)
Record pos_ok (Rr : nat) (m : smod) (f c r : nat) : Prop := {
  pk_f : (f < sfeat m)%nat; pk_c : (c < schan m)%nat; pk_r : (r < Rr)%nat }.

(** What the theorems about squared circuits ask of a component: constructed
    with [Rr] repetitions, leaf variables in ascending order, admissible leaf
    families over the domains [D], parameters and weights outside the clamping
    ranges. *)
Record component (Rr : nat) (D : nat -> domain) (m : smod) : Prop := {
  cm_built : constructed Rr m;
  cm_sorted : sorted_leaves m;
  cm_fits : Forall (sleaf_fits D) (sleaves m);
  cm_exact : forall la lb, In la (sleaves m) -> In lb (sleaves m) -> query (sl_scope la) = query (sl_scope lb) -> exact_leaves la lb;
  cm_support : uniform_support m;
  cm_weights : exact_weights m;
  cm_root : strong_root m }.

(** the variables of output feature [f] *)
Definition vars_of (m : smod) (f : nat) : list nat := nth f (fts (skel m)) [].

(** every cell holds a value in the support of the leaves *)
Definition in_support (m : smod) (x : row) : Prop :=
  Forall (fun l => match l with
    | SFam l => forall f c r, (f < length (query (fl_scope l)))%nat -> (c < fl_ch l)%nat -> (r < fl_rep l)%nat ->
        exists a, x (nth f (query (fl_scope l)) 0%nat) = Some a /\ supp (fl_fam l f c r) a = true
    | SSC sc _ _ K _ => forall v, In v (query sc) -> exists k, (k < K)%nat /\ x v = Some (INR k)
    end) (sleaves m).

(** below a Sum there are only monotone modules *)
Fixpoint monotone (m : smod) : Prop :=
  match m with
  | SLeaf l => match l with SFam _ => True | SSC _ _ _ _ _ => False end
  | SSum c _ _ _ | SProduct c => monotone c
  | SSigned _ _ _ _ => False
  | SCat _ _ cs => (fix go (l : list smod) : Prop := match l with [] => True | c :: r => monotone c /\ go r end) cs
  end.
Fixpoint sums_monotone (m : smod) : Prop :=
  match m with
  | SLeaf _ => True
  | SSum c _ _ _ => monotone c
  | SSigned c _ _ _ | SProduct c => sums_monotone c
  | SCat _ _ cs => (fix go (l : list smod) : Prop := match l with [] => True | c :: r => sums_monotone c /\ go r end) cs
  end.

(** all rows that agree with [x] outside [vars] and hold one of the values
    [dom v] at each v in [vars] *)
Fixpoint assignments (dom : nat -> list R) (vars : list nat) (x : row) : list row :=
  match vars with
  | [] => [x]
  | v :: rest => flat_map (fun a => assignments dom rest (upd x v (Some a))) (dom v)
  end.
