(** Model of the circuit core: leaves, Sum, Product, Cat; construction, shapes,
    feature_to_scope, log_likelihood.
    spflow/modules/{module.py, module_shape.py, leaves/leaf.py, sums/sum.py,
    products/product.py, ops/cat.py}.

    Idealisations: floats are reals; tensors are functions of their indices plus
    extents; one data row at a time (every operation below is independent across
    the batch dimension).  Conditional leaves (parameter_fn, leaf.py 131-148) are
    not modelled. *)
From Coq Require Import List Arith Bool.
From Verif Require Import Base ScopeModel.
Import ListNotations.
Local Open Scope R_scope.

(** module_shape.py: ModuleShape *)
Record shape := mkShape { features : nat; channels : nat; repetitions : nat }.

(** A data row: column -> value, [None] = NaN. *)
Definition row := nat -> option R.
Definition upd (x : row) (v : nat) (a : option R) : row := fun u => if Nat.eqb u v then a else x u.

(** leaves/leaf.py: LeafModule.  [l_lp f c r a] is the log-probability
    [distribution().log_prob] of value [a] at feature f, channel c, repetition r
    (461); [l_mode] is [dist.mode] (684). *)
Record leaf := mkLeaf {
  l_scope : scope;
  l_ch : nat;
  l_rep : nat;
  l_lp : nat -> nat -> nat -> R -> lval;
  l_mode : nat -> nat -> nat -> R }.

(** The modules.  [MSum c co rr lg]: sum.py, input [c], out_shape.channels [co],
    out_shape.repetitions [rr], logits [lg f ci co r] (123-126).
    [MCat d2 sc cs]: cat.py, [d2 = false] for dim=1, [true] for dim=2, [sc] the
    stored [_scope] (43, 55).  [MProduct c]: product.py. *)
Inductive module :=
| MLeaf (l : leaf)
| MSum (c : module) (co rr : nat) (lg : nat -> nat -> nat -> nat -> R)
| MCat (d2 : bool) (sc : scope) (cs : list module)
| MProduct (c : module).

(** scope: leaf.py 56, sum.py 109, cat.py 43/55, product.py 43 *)
Fixpoint scope_of (m : module) : scope :=
  match m with
  | MLeaf l => l_scope l
  | MSum c _ _ _ => scope_of c
  | MCat _ sc _ => sc
  | MProduct c => scope_of c
  end.

Definition hd_shape (l : list shape) : shape := hd (mkShape 0 0 0) l.
Fixpoint nsum (l : list nat) : nat := match l with [] => 0%nat | x :: r => (x + nsum r)%nat end.

(** out_shape: leaf.py 61-67, sum.py 112-115, cat.py 59-69, product.py 46-48 *)
Fixpoint out_shape (m : module) : shape :=
  match m with
  | MLeaf l => mkShape (length (query (l_scope l))) (l_ch l) (l_rep l)
  | MSum c co rr _ => mkShape (features (out_shape c)) co rr
  | MCat d2 _ cs =>
      let shs := map out_shape cs in
      let s0 := hd_shape shs in
      if d2 then mkShape (features s0) (nsum (map channels shs)) (repetitions s0)
      else mkShape (nsum (map features shs)) (channels s0) (repetitions s0)
  | MProduct c => mkShape 1 (channels (out_shape c)) (repetitions (out_shape c))
  end.

(** Scope.join_all over scopes without evidence, as used by
    Product.feature_to_scope; see [join_all_queries] in CircuitBasics. *)
Definition pjoin (l : list (list nat)) : list nat :=
  match l with
  | [] => []
  | [x] => x
  | _ => sortu (concat l)
  end.

(** feature_to_scope (queries of one column; all columns are equal):
    leaf.py 309-319, sum.py 186-187, cat.py 72-77, product.py 51-56 *)
Fixpoint fts (m : module) : list (list nat) :=
  match m with
  | MLeaf l => map (fun v => [v]) (query (l_scope l))
  | MSum c _ _ _ => fts c
  | MCat d2 _ cs => if d2 then hd [] (map fts cs) else concat (map fts cs)
  | MProduct c => [pjoin (fts c)]
  end.

(** number of columns of the feature_to_scope array: leaf.py 315, sum.py 187,
    cat.py 75-77, product.py 53-56 *)
Fixpoint fts_cols (m : module) : nat :=
  match m with
  | MLeaf l => l_rep l
  | MSum c _ _ _ => fts_cols c
  | MCat _ _ cs => hd 0%nat (map fts_cols cs)
  | MProduct c => repetitions (out_shape c)
  end.

(** ** log_likelihood *)

(** index into a dimension of extent [n] under broadcasting *)
Definition bidx (n i : nat) : nat := if Nat.eqb n 1 then 0%nat else i.

(** broadcasting two extents; torch raises when they are incompatible *)
Definition bcast (a b : nat) : result nat :=
  if Nat.eqb a b then Ok a else if Nat.eqb a 1 then Ok b else if Nat.eqb b 1 then Ok a else Err.

(** repetition extent of the tensor log_likelihood returns: Sum broadcasts the
    input's repetitions against the weights' (sum.py 270-275). *)
Fixpoint ll_reps (m : module) : nat :=
  match m with
  | MLeaf l => l_rep l
  | MSum c _ rr _ => if Nat.eqb (ll_reps c) 1 then rr else ll_reps c
  | MCat _ _ cs => hd 0%nat (map ll_reps cs)
  | MProduct c => ll_reps c
  end.

(** torch.nn.functional.log_softmax over the [n] entries [g] (sum.py 197) *)
Definition log_softmax (n : nat) (g : nat -> R) (i : nat) : R := g i - ln (bsum n (fun j => exp (g j))).
Definition softmax (n : nat) (g : nat -> R) (i : nat) : R := exp (g i) / bsum n (fun j => exp (g j)).

(** torch.cat along features (dim=1) / channels (dim=2): cat.py 98-106 *)
Fixpoint catpick (d2 : bool) (vs : list (shape * (nat -> nat -> nat -> lval))) (f c r : nat) : lval :=
  match vs with
  | [] => NInf (* index out of range *)
  | (sh, g) :: rest =>
      if d2 then (if Nat.ltb c (channels sh) then g f c r else catpick d2 rest f (c - channels sh) r)
      else (if Nat.ltb f (features sh) then g f c r else catpick d2 rest (f - features sh) c r)
  end.

(** log_likelihood with the leaves' scores abstracted: [s l f c r] is what leaf
    [l] contributes.  sum.py 264-280, cat.py 98-106, product.py 73-82. *)
Fixpoint evalm (s : leaf -> nat -> nat -> nat -> lval) (m : module) (f c r : nat) {struct m} : lval :=
  match m with
  | MLeaf l => s l f c r
  | MSum ch co rr lg =>
      let n := channels (out_shape ch) in
      lse n (fun ci => ladd (evalm s ch f ci (bidx (ll_reps ch) r))
                            (Fin (log_softmax n (fun i => lg f i c (bidx rr r)) ci)))
  | MCat d2 _ cs => catpick d2 (map (fun ch => (out_shape ch, evalm s ch)) cs) f c r
  | MProduct ch => ladds (features (out_shape ch)) (fun f' => evalm s ch f' c r)
  end.

(** leaf.py 429-477 for one row: NaN cells are scored 0 (438-446, 463-470),
    others by log_prob of column [scope.query[f]] (432). *)
Definition leaf_score (x : row) (l : leaf) (f c r : nat) : lval :=
  match x (nth f (query (l_scope l)) 0%nat) with
  | None => Fin 0
  | Some a => l_lp l f c r a
  end.

Definition loglik (m : module) (x : row) (f c r : nat) : lval := evalm (leaf_score x) m f c r.

(** module.py 494-514: probability = exp of log_likelihood *)
Definition prob (m : module) (x : row) (f c r : nat) : R := pr (loglik m x f c r).

(** Shape of the tensor log_likelihood returns for one row, with torch's
    failures: Sum adds (F,Ci,1,Rc) and (F',Ci',Co,R) (sum.py 270-275), Cat
    requires equal extents off the concatenated dimension (cat.py 105). *)
Fixpoint ll_shape (m : module) : result shape :=
  match m with
  | MLeaf l => Ok (mkShape (length (query (l_scope l))) (l_ch l) (l_rep l))
  | MSum c co rr _ =>
      bind (ll_shape c) (fun s =>
      bind (bcast (features s) (features (out_shape c))) (fun F =>
      bind (bcast (channels s) (channels (out_shape c))) (fun _ =>
      bind (bcast (repetitions s) rr) (fun R => Ok (mkShape F co R)))))
  | MCat d2 _ cs =>
      (fix go (l : list module) : result shape :=
         match l with
         | [] => Err
         | c :: rest =>
             bind (ll_shape c) (fun s =>
               match rest with
               | [] => Ok s
               | _ => bind (go rest) (fun t =>
                   if d2
                   then if (Nat.eqb (features s) (features t) && Nat.eqb (repetitions s) (repetitions t))%bool
                        then Ok (mkShape (features s) (channels s + channels t) (repetitions s)) else Err
                   else if (Nat.eqb (channels s) (channels t) && Nat.eqb (repetitions s) (repetitions t))%bool
                        then Ok (mkShape (features s + features t) (channels s) (repetitions s)) else Err)
               end)
         end) cs
  | MProduct c => bind (ll_shape c) (fun s => Ok (mkShape 1 (channels s) (repetitions s)))
  end.

(** ** Constructors *)

(** cat.py 20-69.  An empty list fails at [self.inputs[0]] / [reduce]. *)
Definition mk_cat (d2 : bool) (cs : list module) : result module :=
  match cs with
  | [] => Err
  | c0 :: _ =>
      if d2
      then if forallb (fun c => Nat.eqb (features (out_shape c)) (features (out_shape c0))) cs
           then if all_equal (map scope_of cs) then Ok (MCat true (scope_of c0) cs) else Err
           else Err
      else if forallb (fun c => Nat.eqb (channels (out_shape c)) (channels (out_shape c0))) cs
           then bind (all_pairwise_disjoint (map scope_of cs)) (fun b =>
                if b then bind (join_all (map scope_of cs)) (fun sc => Ok (MCat false sc cs)) else Err)
           else Err
  end.

(** product.py 25-48: a single module, or a list (one element: no Cat) *)
Definition mk_product (cs : list module) : result module :=
  match cs with
  | [c] => Ok (MProduct c)
  | _ => bind (mk_cat false cs) (fun c => Ok (MProduct c))
  end.

(** weights argument of Sum: 1D-4D tensors (sum.py 145-155) *)
Record wtensor := mkW { wF : nat; wI : nat; wO : nat; wR : nat; wv : nat -> nat -> nat -> nat -> R }.
Inductive warg :=
| W1 (ci : nat) (v : nat -> R)
| W2 (ci co : nat) (v : nat -> nat -> R)
| W3 (f ci co : nat) (v : nat -> nat -> nat -> R)
| W4 (w : wtensor).
Definition norm_warg (w : warg) : wtensor :=
  match w with
  | W1 ci v => mkW 1 ci 1 1 (fun _ i _ _ => v i)
  | W2 ci co v => mkW 1 ci co 1 (fun _ i o _ => v i o)
  | W3 f ci co v => mkW f ci co 1 (fun g i o _ => v g i o)
  | W4 w => w
  end.

Definition rlt (a b : R) : bool := if Rlt_dec a b then true else false.
Definition rle (a b : R) : bool := if Rle_dec a b then true else false.
Definition allb (n : nat) (p : nat -> bool) : bool := forallb p (seq 0 n).

(** torch.allclose(x, 1.0): |x - 1| <= atol + rtol * 1, rtol = 1e-5, atol = 1e-8 *)
Definition close1 (x : R) : bool := rle (Rabs (x - 1)) (/ 10 ^ 8 + / 10 ^ 5).

(** sum.py 214-221: the checks of the weights setter *)
Definition weights_shape_ok (w : wtensor) (F I O Rr : nat) : bool :=
  (Nat.eqb (wF w) F && Nat.eqb (wI w) I && Nat.eqb (wO w) O && Nat.eqb (wR w) Rr)%bool.
Definition weights_pos (w : wtensor) : bool :=
  allb (wF w) (fun f => allb (wI w) (fun i => allb (wO w) (fun o => allb (wR w) (fun r => rlt 0 (wv w f i o r))))).
Definition weights_sum1 (w : wtensor) : bool :=
  allb (wF w) (fun f => allb (wO w) (fun o => allb (wR w) (fun r => close1 (bsum (wI w) (fun i => wv w f i o r))))).

(** sum.py 209-222, projections.py 36: logits = log(weights) *)
Definition set_weights (c : module) (co rr : nat) (w : wtensor) : result module :=
  if negb (weights_shape_ok w (features (out_shape c)) (channels (out_shape c)) co rr) then Err
  else if negb (weights_pos w) then Err
  else if negb (weights_sum1 w) then Err
  else Ok (MSum c co rr (fun f i o r => ln (wv w f i o r))).

(** Sum(inputs=c, out_channels=co, num_repetitions=nr, weights=w): sum.py 46-169
    with weights given: out_channels must be the default 1 (139), num_repetitions
    1 or matching (157-164), out_channels >= 1 (94). *)
Definition mk_sum_w (c : module) (co nr : nat) (wa : warg) : result module :=
  let w := norm_warg wa in
  if negb (Nat.eqb co 1) then Err
  else if (negb (Nat.eqb nr 1) && negb (Nat.eqb nr (wR w)))%bool then Err
  else if Nat.ltb (wO w) 1 then Err
  else set_weights c (wO w) (wR w) w.

(** Sum(inputs=c, out_channels=co, num_repetitions=nr): sum.py 135-136, 179-183;
    [rnd] is what torch.rand returned (values in [0,1)). *)
Definition mk_sum_rand (c : module) (co nr : nat) (rnd : nat -> nat -> nat -> nat -> R) : result module :=
  if Nat.ltb co 1 then Err
  else
    let I := channels (out_shape c) in
    let raw f i o r := rnd f i o r + / 10 ^ 8 in
    set_weights c co nr
      (mkW (features (out_shape c)) I co nr (fun f i o r => raw f i o r / bsum I (fun j => raw f j o r))).

(** sum.py 100-106: inputs given as a list *)
Definition sum_inputs (cs : list module) : result module :=
  match cs with [c] => Ok c | _ => mk_cat true cs end.

(** Leaves: a valid scope, at least one variable, channel and repetition. *)
Definition leaf_okb (l : leaf) : bool :=
  match scope_copy (l_scope l) with Err => false | Ok _ => true end
  && negb (scope_empty (l_scope l)) && Nat.ltb 0 (l_ch l) && Nat.ltb 0 (l_rep l).

(** The modules a user can obtain from the constructors (and from assigning
    log_weights / an EM step, which replace the logits by an arbitrary real
    tensor of the same shape: sum.py 224-239). *)
Inductive built : module -> Prop :=
| b_leaf l : leaf_okb l = true -> built (MLeaf l)
| b_cat d2 cs m : Forall built cs -> mk_cat d2 cs = Ok m -> built m
| b_product cs m : Forall built cs -> mk_product cs = Ok m -> built m
| b_sum_w c co nr w m : built c -> mk_sum_w c co nr w = Ok m -> built m
| b_sum_rand c co nr rnd m : built c -> (1 <= nr)%nat -> mk_sum_rand c co nr rnd = Ok m -> built m
| b_log_weights c co rr lg lg' : built (MSum c co rr lg) -> built (MSum c co rr lg').

(** Feature alignment: in every Cat(dim=2) the inputs' feature_to_scope arrays
    agree.  The constructor does NOT check this (it compares scopes as sets). *)
Fixpoint aligned (m : module) : Prop :=
  match m with
  | MLeaf _ => True
  | MSum c _ _ _ => aligned c
  | MCat d2 _ cs =>
      (fix go (l : list module) : Prop := match l with [] => True | c :: r => aligned c /\ go r end) cs
      /\ (d2 = true -> Forall (fun c => fts c = hd [] (map fts cs)) cs)
  | MProduct c => aligned c
  end.
