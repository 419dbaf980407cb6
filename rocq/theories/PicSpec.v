(** What a PIC means: every latent is integrated with the quadrature rule.  Independent of
    channels, grids and layers. *)
From Coq Require Import List Arith Bool Reals.
From Verif Require Import Base ScopeModel ScopeProofs RegionModel RegionSpec CircuitModel LayerModel PicModel.
Import ListNotations.
Local Open Scope R_scope.

(** values of the latents *)
Definition env := nat -> R.
Definition upd (e : env) (v : nat) (a : R) : env := fun u => if Nat.eqb u v then a else e u.

(** iterated one-dimensional quadrature over the latents [ys] *)
Fixpoint quad (q : rule) (ys : list nat) (k : env -> R) (e : env) : R :=
  match ys with
  | [] => k e
  | y :: rest => bsum (length (pts q)) (fun j => nth j (wts q) 0 * quad q rest k (upd e y (nth j (pts q) 0)))
  end.

(** the weighting function; [gf g h]: head [h] of group [g] *)
Definition fn_of (gf : nat -> nat -> list R -> list R -> R) (w : weighting) : list R -> list R -> R :=
  match w with NoFn => fun _ _ => 0 | Fn f => f | Grp g h => gf g h end.

(** g_u(x, z): input units by [g]; integral: quadrature of f_u(z, y) g_in(x, y) over the
    integrated latents, [cols ys c] being the order in which f_u gets them; product; sum *)
Section Den.
Variable cols : scope -> pic -> list nat.
Variable gf : nat -> nat -> list R -> list R -> R.
Variable g : input -> row -> list R -> R.
Variable q : rule.
Variable x : row.
Fixpoint den (p : pic) (e : env) {struct p} : R :=
  match p with
  | PLeaf u => g u x (map e (query (i_latent u)))
  | PInt zs ys w c =>
      quad q (cols ys c) (fun e' => fn_of gf w (map e (query zs)) (map e' (cols ys c)) * den c e') e
  | PProd _ _ l r => den l e * den r e
  | PSum ws _ cs =>
      (fix go (ws : list R) (cs : list pic) {struct cs} : R :=
         match ws, cs with w :: ws', c :: cs' => w * den c e + go ws' cs' | _, _ => 0 end) ws cs
  end.
End Den.

(** the latents of a unit, those of the left factor of a product before those of the right *)
Fixpoint order (p : pic) : list nat :=
  match p with
  | PLeaf u => query (i_latent u)
  | PInt zs _ _ _ => query zs
  | PProd _ _ l r => if scope_eqb (latent l) (latent r) then order l else order l ++ order r
  | PSum _ _ cs => match cs with [] => [] | c :: _ => order c end
  end.
(** f_u gets the integrated latents left factor first *)
Definition left_first : scope -> pic -> list nat := fun _ c => order c.
(** f_u gets them in the order of integrated_latent_scope.query *)
Definition by_scope : scope -> pic -> list nat := fun ys _ => query ys.

(** materialize() of an input unit returns one feature and one channel per assignment of
    quadrature points to its latents, with the value of the unit there *)
Definition leaf_ok (q : rule) (g : input -> row -> list R -> R) (u : input) : Prop :=
  exists m, i_mat u q = Ok m /\ q_scope m = i_scope u /\
    q_shape m = mkShape 1 (length (pts q) ^ length (query (i_latent u))) 1 /\
    forall x c, (c < length (pts q) ^ length (query (i_latent u)))%nat ->
      pr (q_ll m x 0 c 0) = g u x (nth c (grid q (length (query (i_latent u)))) []).

(** a PIC assembled by the constructors: integrals integrate the latents of their input, with
    a non-negative function; factors of a product have the same latents or are combined
    freely; summands have the same latents *)
Section Sound.
Variable gf : nat -> nat -> list R -> list R -> R.
Variable g : input -> row -> list R -> R.
Variable q : rule.
Fixpoint sound (p : pic) : Prop :=
  match p with
  | PLeaf u => leaf_ok q g u
  | PInt zs ys w c => sound c /\ w <> NoFn /\ (forall a b, 0 <= fn_of gf w a b) /\
      NoDup (order c) /\ length (query ys) = length (order c)
  | PProd s zs l r => sound l /\ sound r /\ mk_prod l r = Ok (PProd s zs l r) /\
      (scope_eqb (latent l) (latent r) = true -> order l = order r)
  | PSum ws zs cs => mk_sum cs ws zs = Ok (PSum ws zs cs) /\
      (fix all (l : list pic) : Prop := match l with [] => True | c :: r => (sound c /\ order c = order (PSum ws zs cs)) /\ all r end) cs
  end.
End Sound.

(** every integral's integrated latents are listed left factor first *)
Fixpoint in_order (p : pic) : Prop :=
  match p with
  | PLeaf _ => True
  | PInt _ ys _ c => in_order c /\ query ys = order c
  | PProd _ _ l r => in_order l /\ in_order r
  | PSum _ _ cs => (fix all (l : list pic) : Prop := match l with [] => True | c :: r => in_order c /\ all r end) cs
  end.

(** no integral uses a function group *)
Fixpoint plain (p : pic) : Prop :=
  match p with
  | PLeaf _ => True
  | PInt _ _ w c => (forall k h, w <> Grp k h) /\ plain c
  | PProd _ _ l r => plain l /\ plain r
  | PSum _ _ cs => (fix all (l : list pic) : Prop := match l with [] => True | c :: r => plain c /\ all r end) cs
  end.

(** ** Region graphs and factories *)

(** every region has variables and no evidence; every partition splits it into at least two
    regions *)
Definition rg_ok (root : region) : Prop := forall r, reach root r ->
  valid (r_scope r) /\ evidence (r_scope r) = [] /\ query (r_scope r) <> [] /\
  forall p, In p (r_children r) -> (2 <= length p)%nat /\
    ForallOrdPairs (fun a b => forall v, In v (query (r_scope a)) -> ~ In v (query (r_scope b))) p /\
    (forall v, In v (query (r_scope r)) <-> exists c, In c p /\ In v (query (r_scope c))).
(** only the root has alternative partitions *)
Definition single_below (root : region) : Prop :=
  forall r c, reach root r -> is_child c r -> (length (r_children c) <= 1)%nat.

(** the factories follow their protocol: input units for the given scopes, non-negative
    functions, [n] positive weights summing to one (up to torch.allclose) *)
Definition factories_ok (q : rule) (gf : nat -> nat -> list R -> list R -> R) (g : input -> row -> list R -> R) (F : factories) : Prop :=
  (forall s z, i_scope (leaf_factory F s z) = s /\ i_latent (leaf_factory F s z) = z /\ leaf_ok q g (leaf_factory F s z)) /\
  (exists ff, function_factory F = Some ff /\ forall n zd yd a b, 0 <= ff n zd yd a b) /\
  (forall k h a b, 0 <= gf k h a b) /\
  (forall wf n, sum_weights_factory F = Some wf -> (2 <= n)%nat ->
     length (wf n) = n /\ (forall w, In w (wf n) -> 0 < w) /\ Rabs (lsumR (wf n) - 1) <= / 10 ^ 8 + / 10 ^ 5).
