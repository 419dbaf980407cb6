(** Model of the high-level SOS constructors: spflow/zoo/sos/models.py.

    Idealisations: floats are reals; integers that the constructors require to be
    positive are natural numbers (0 stands for every rejected value); the pseudo
    random generators are arbitrary functions of the seed and of the place where a
    number is drawn.  Input layers other than the three supported strings and
    unknown region graphs are represented by one constructor each. *)
From Coq Require Import List Arith ZArith Bool Reals.
From Verif Require Import Base ScopeModel CircuitModel LeafModel SignedModel TripleModel.
Import ListNotations.
Local Open Scope R_scope.

(** ** Region trees *)

(** models.py 26-29: _TreeNode; no children: [children is None] *)
Inductive tnode := TN (sc : list nat) (ch : list tnode).
Definition tscope (t : tnode) : list nat := match t with TN s _ => s end.
Definition tkids (t : tnode) : list tnode := match t with TN _ c => c end.

(** the result of rng.shuffle (232, 352) at a place of the construction *)
Definition shuffles := list bool -> list nat -> list nat.

(** 230-234: _split_random_binary *)
Definition split_binary (perm : list nat) : list nat * list nat :=
  let mid := Nat.div (length perm) 2 in (firstn mid perm, skipn mid perm).
Definition isnil {A} (l : list A) : bool := match l with [] => true | _ => false end.

(** 237-249: _build_random_binary_tree; [fuel] bounds the recursion depth *)
Fixpoint random_binary (fuel : nat) (sh : shuffles) (p : list bool) (sc : list nat) : tnode :=
  match fuel with
  | O => TN sc []
  | S fuel =>
      if Nat.leb (length sc) 1 then TN sc []
      else let '(l, r) := split_binary (sh p sc) in
           if (isnil l || isnil r)%bool then TN sc []
           else TN sc [random_binary fuel sh (true :: p) l; random_binary fuel sh (false :: p) r]
  end.

(** 252-263: _build_linear_tree_from_order *)
Fixpoint linear_tree (order : list nat) : tnode :=
  match order with
  | [] => TN [] []
  | v :: rest =>
      match rest with
      | [] => TN [v] []
      | _ => TN order [TN [v] []; linear_tree rest]
      end
  end.

(** 266-282: _pixel_indices_for_patch *)
Definition patch_indices (c h w y0 y1 x0 x1 : nat) : list nat :=
  flat_map (fun ch => flat_map (fun y => map (fun x => (ch * (h * w) + y * w + x)%nat) (seq x0 (x1 - x0)))
                               (seq y0 (y1 - y0))) (seq 0 c).

(** 285-335: _build_quadtree_patch; [fuel] bounds the recursion depth *)
Fixpoint quadtree (fuel c h w splits : nat) (y0 y1 x0 x1 : nat) : tnode :=
  let sc := patch_indices c h w y0 y1 x0 x1 in
  match fuel with
  | O => TN sc []
  | S fuel =>
      let hh := (y1 - y0)%nat in
      let ww := (x1 - x0)%nat in
      if (Nat.leb hh 1 && Nat.leb ww 1)%bool then TN sc []
      else
        let ym := (y0 + Nat.div hh 2)%nat in
        let xm := (x0 + Nat.div ww 2)%nat in
        let bounds :=
          if Nat.eqb splits 2
          then if (Nat.leb ww hh && Nat.ltb 1 hh)%bool then [(y0, ym, x0, x1); (ym, y1, x0, x1)]
               else if Nat.ltb 1 ww then [(y0, y1, x0, xm); (y0, y1, xm, x1)] else []
          else [(y0, ym, x0, xm); (y0, ym, xm, x1); (ym, y1, x0, xm); (ym, y1, xm, x1)] in
        let kids := map (fun b => match b with (a, a', b, b') => quadtree fuel c h w splits a a' b b' end)
                        (filter (fun b => match b with (a, a', b, b') => negb (Nat.leb a' a || Nat.leb b' b) end) bounds) in
        if Nat.ltb (length kids) 2 then TN sc [] else TN sc kids
  end.

Inductive region_graph := RndBt | RndLt | Lt | Qt | Qt2 | Qt4 | OtherGraph.

(** 338-370: _build_tree; [sh] is what random.Random(seed) shuffles *)
Definition build_tree (rg : region_graph) (n : nat) (img : option (nat * nat * nat)) (sh : shuffles) : result tnode :=
  let qt splits := match img with
                   | None => Err
                   | Some (c, h, w) => Ok (quadtree (h + w) c h w splits 0 h 0 w)
                   end in
  match rg with
  | RndBt => Ok (random_binary n sh [] (seq 0 n))
  | RndLt => Ok (linear_tree (sh [] (seq 0 n)))
  | Lt => Ok (linear_tree (seq 0 n))
  | Qt | Qt4 => qt 4%nat
  | Qt2 => qt 2%nat
  | OtherGraph => Err
  end.

(** ** Components *)

Inductive input_layer := LCategorical | LEmbedding | LGaussian | LOther.
(** 32-40: _CircuitConfig; [g_states] is unused for gaussian inputs *)
Record cfg := mkCfg {
  g_in : nat; g_sum : nat; g_layer : input_layer; g_states : nat; g_vars : nat; g_signed : bool; g_signed_in : bool }.

(** What the generators and default initialisers return: torch.rand (values in
    [0,1)) for SignedSum and Sum weights and SignedCategorical weights, the
    default Categorical logits and Normal (loc, log scale).  Places are paths from
    the root; [d_top] is the extra sum on top. *)
Record draws := mkDraws {
  d_sum : list nat -> nat -> nat -> nat -> nat -> R;
  d_top : nat -> nat -> nat -> nat -> R;
  d_state : list nat -> nat -> nat -> nat -> nat -> R;
  d_logit : list nat -> nat -> nat -> nat -> nat -> R;
  d_normal : list nat -> nat -> nat -> nat -> R * R }.

(** 100-103: _signed_init_bounds *)
Definition init_low (n : nat) : R := if Nat.leb n 2 then -2 else 0.
Definition init_high (n : nat) : R := if Nat.leb n 2 then 2 else 1.
(** 106-115: _rand_uniform *)
Definition rand_uniform (n : nat) (t : R) : R := (init_high n - init_low n) * t + init_low n.

(** constructors of leaf modules check the scope and the extents (Scope, leaf.py);
    SignedCategorical additionally K (signed_categorical.py 60-61) *)
Definition smk_leaf (l : sleaf) : result smod :=
  let m := SLeaf l in
  match skel m with
  | MLeaf b => if leaf_okb b then match l with SSC _ _ _ O _ => Err | _ => Ok m end else Err
  | _ => Err
  end.

(** 118-153: _make_leaf *)
Definition make_leaf (g : cfg) (d : draws) (p : list nat) (sc : list nat) : result smod :=
  let s := mkScope sc [] in
  match g_layer g with
  | LGaussian => smk_leaf (SFam (mk_fleaf s (g_in g) 1 (fun f c r => FNormal (fst (d_normal d p f c r)) (snd (d_normal d p f c r)))))
  | _ =>
      if (g_signed g && g_signed_in g)%bool
      then smk_leaf (SSC s (g_in g) 1 (g_states g) (fun f c r k => rand_uniform (g_vars g) (d_state d p f c r k)))
      else smk_leaf (SFam (mk_fleaf s (g_in g) 1 (fun f c r => FCategorical (g_states g) (d_logit d p f c r))))
  end.

(** 156-181: _make_signed_sum; the weights have the shape SignedSum asks for *)
Definition make_signed_sum (g : cfg) (rnd : nat -> nat -> nat -> nat -> R) (c : smod) (co : nat) : result smod :=
  Ok (SSigned c co (repetitions (out_shape (skel c))) (fun f i o r => rand_uniform (g_vars g) (rnd f i o r))).

(** Sum(inputs=c, out_channels=co, num_repetitions=nr): see CircuitModel.mk_sum_rand *)
Definition smk_sum (c : smod) (co nr : nat) (rnd : nat -> nat -> nat -> nat -> R) : result smod :=
  bind (mk_sum_rand (skel c) co nr rnd) (fun m => match m with MSum _ co' rr' lg => Ok (SSum c co' rr' lg) | _ => Err end).

(** Product(children): see CircuitModel.mk_product *)
Definition smk_product (cs : list smod) : result smod :=
  match cs with
  | [c] => Ok (SProduct c)
  | _ => bind (mk_cat false (map skel cs)) (fun m => Ok (SProduct (SCat false (scope_of m) cs)))
  end.

(** Sum or SignedSum on top of [c]: 190-192, 208-211 *)
Definition make_sum (g : cfg) (rnd : nat -> nat -> nat -> nat -> R) (c : smod) (co : nat) : result smod :=
  if g_signed g then make_signed_sum g rnd c co
  else smk_sum c co (repetitions (out_shape (skel c))) rnd.

(** 184-192: _instantiate_tree *)
Fixpoint instantiate (g : cfg) (d : draws) (p : list nat) (t : tnode) {struct t} : result smod :=
  match t with
  | TN sc [] => make_leaf g d p sc
  | TN _ ch =>
      bind ((fix go (i : nat) (l : list tnode) : result (list smod) :=
               match l with
               | [] => Ok []
               | c :: r => bind (instantiate g d (i :: p) c) (fun m => bind (go (S i) r) (fun ms => Ok (m :: ms)))
               end) 0%nat ch) (fun cs =>
      bind (smk_product cs) (fun prod => make_sum g (d_sum d p) prod (g_sum g)))
  end.

(** 195-215: _finalize_scalar *)
Definition finalize (g : cfg) (d : draws) (root : smod) (force : bool) : result smod :=
  let out := if Nat.eqb (sfeat root) 1 then root else SProduct root in
  bind (if (negb (Nat.eqb (schan out) 1) || force)%bool then make_sum g (d_top d) out 1 else Ok out) (fun out =>
  if scalar_shape out then Ok out else Err).

(** 218-227: _build_component *)
Definition build_component (t : tnode) (g : cfg) (d : draws) (force : bool) : result smod :=
  bind (instantiate g d [] t) (fun root => finalize g d root force).

(** ** SOSModel and ExpSOSModel *)

(** the constructor arguments; [a_states]: the num_categories / num_states entry of
    input_layer_kwargs *)
Record sos_args := mkArgs {
  a_vars : nat; a_img : option (nat * nat * nat); a_in : nat; a_sum : nat; a_layer : input_layer; a_states : option nat;
  a_squares : nat; a_graph : region_graph; a_structured : bool; a_complex : bool; a_signed_in : option bool; a_seed : Z;
  a_mono_in : nat; a_mono_sum : nat }.

(** 52-82: _validate_model_common *)
Definition validate (a : sos_args) : bool :=
  (negb (Nat.eqb (a_vars a) 0) && negb (Nat.eqb (a_in a) 0) && negb (Nat.eqb (a_sum a) 0)
   && match a_layer a with LOther => false | _ => true end
   && match a_img a with
      | None => true
      | Some (c, h, w) => negb (Nat.eqb c 0) && negb (Nat.eqb h 0) && negb (Nat.eqb w 0) && Nat.eqb (c * h * w) (a_vars a)
      end)%bool.

(** 85-97: _resolve_num_states (0 for gaussian inputs) *)
Definition resolve_states (a : sos_args) : result nat :=
  match a_layer a with
  | LCategorical | LEmbedding => match a_states a with Some k => Ok k | None => Err end
  | _ => Ok 0%nat
  end.
(** 415-416, 556-557 *)
Definition signed_inputs (a : sos_args) : bool :=
  match a_signed_in a with Some b => b | None => match a_layer a with LEmbedding => true | _ => false end end.

(** 373-376: _structure_seed *)
Definition structure_seed (base : Z) (i : nat) (structured : bool) : Z :=
  if structured then base else (base + Z.of_nat i * 123)%Z.

(** What the seeded generators produce: random.Random(seed) and torch.Generator *)
Record seeds := mkSeeds { sh_of : Z -> shuffles; dr_of : Z -> draws }.

(** 433-446: the component(s) of one square *)
Definition square (a : sos_args) (g : cfg) (s : seeds) (i : nat) : result (list smod) :=
  bind (build_tree (a_graph a) (a_vars a) (a_img a) (sh_of s (structure_seed (a_seed a) i (a_structured a)))) (fun t =>
  if a_complex a
  then bind (build_component t g (dr_of s (a_seed a + 10000 + 2 * Z.of_nat i)%Z) false) (fun re =>
       bind (build_component t g (dr_of s (a_seed a + 10000 + 2 * Z.of_nat i + 1)%Z) false) (fun im => Ok [re; im]))
  else bind (build_component t g (dr_of s (a_seed a + 10000 + Z.of_nat i)%Z) false) (fun c => Ok [c])).

(** 387-453: SOSModel.__init__; the result is the list of components of the SOCS *)
Definition sos_model (a : sos_args) (s : seeds) : result (list smod) :=
  if Nat.eqb (a_squares a) 0 then Err
  else if negb (validate a) then Err
  else bind (resolve_states a) (fun K =>
    let g := mkCfg (a_in a) (a_sum a) (a_layer a) K (a_vars a) true (signed_inputs a) in
    bind (mapR (square a g s) (seq 0 (a_squares a))) (fun css => mk_socs (concat css))).

(** 524-613: ExpSOSModel.__init__ *)
Definition exp_sos_model (a : sos_args) (s : seeds) : result expsocs :=
  if negb (validate a) then Err
  else if (Nat.eqb (a_mono_in a) 0 || Nat.eqb (a_mono_sum a) 0)%bool then Err
  else bind (resolve_states a) (fun K =>
    let g := mkCfg (a_in a) (a_sum a) (a_layer a) K (a_vars a) true (signed_inputs a) in
    let gm := mkCfg (a_mono_in a) (a_mono_sum a) (a_layer a) K (a_vars a) false false in
    bind (build_tree (a_graph a) (a_vars a) (a_img a) (sh_of s (structure_seed (a_seed a) 0 (a_structured a)))) (fun t =>
    bind (build_component t gm (dr_of s (a_seed a + 20000)%Z) true) (fun mono =>
    bind (if a_complex a
          then bind (build_component t g (dr_of s (a_seed a + 21000)%Z) true) (fun re =>
               bind (build_component t g (dr_of s (a_seed a + 21001)%Z) true) (fun im => Ok [re; im]))
          else bind (build_component t g (dr_of s (a_seed a + 21000)%Z) true) (fun c => Ok [c])) (fun cs =>
    mk_expsocs mono cs)))).
