(** Model of spflow/zoo/pic/pipeline.py (rg2pic, pic2qpc with mode="expanded"), with
    spflow/zoo/pic/integral.py and the part of spflow/zoo/pic/functional_sharing.py the
    pipeline uses.

    Modules of the materialised circuit are represented by their scope, declared shape and
    log-likelihood of one data row.  Devices and dtypes are not modelled. *)
From Coq Require Import List Arith Bool Reals.
From Verif Require Import Base ScopeModel RegionModel CircuitModel LayerModel WsModel.
Import ListNotations.
Local Open Scope R_scope.

Definition empty_scope : scope := mkScope [] [].
Definition mapR {A B} (g : A -> result B) : list A -> result (list B) :=
  fix go l := match l with [] => Ok [] | a :: r => bind (g a) (fun b => bind (go r) (fun bs => Ok (b :: bs))) end.

(** 53-58 *)
Record rule := mkRule { pts : list R; wts : list R }.
Definition rule_ok (q : rule) : bool := (* 475-480 *)
  (Nat.eqb (length (pts q)) (length (wts q)) && forallb (fun w => rle 0 w) (wts q))%bool.

(** a module of the materialised circuit *)
Record qmod := mkQ { q_scope : scope; q_shape : shape; q_ll : row -> nat -> nat -> nat -> lval }.
Definition q_tens (m : qmod) (x : row) : tens := mkT (q_shape m) (q_ll m x).

(** 61-77: a PIC input unit; [i_mat]: its method materialize *)
Record input := mkIn { i_scope : scope; i_latent : scope; i_mat : rule -> result qmod }.

(** integral.py 29, 60: the weighting function of an integral: missing, a function of the
    (row of the) conditioned and of the integrated latents, or head [h] of function group [g] *)
Inductive weighting := NoFn | Fn (f : list R -> list R -> R) | Grp (g h : nat).

(** symbolic units: input units, Integral (integral.py 16-73), PICProduct (149-169),
    PICSum (85-111); the stored scopes are those the constructors compute *)
Inductive pic :=
| PLeaf (u : input)
| PInt (zs ys : scope) (f : weighting) (c : pic)
| PProd (s zs : scope) (l r : pic)
| PSum (ws : list R) (zs : scope) (cs : list pic).

Fixpoint pic_scope (p : pic) : scope :=
  match p with
  | PLeaf u => i_scope u
  | PInt _ _ _ c => pic_scope c
  | PProd s _ _ _ => s
  | PSum _ _ cs => match cs with [] => empty_scope | c :: _ => pic_scope c end
  end.
Definition latent (p : pic) : scope :=
  match p with PLeaf u => i_latent u | PInt zs _ _ _ => zs | PProd _ zs _ _ => zs | PSum _ zs _ => zs end.

(** 152-165 *)
Definition mk_prod (l r : pic) : result pic :=
  if negb (isdisjoint (pic_scope l) (pic_scope r)) then Err
  else bind (join (pic_scope l) (pic_scope r)) (fun s =>
       bind (join_all [latent l; latent r]) (fun zs => Ok (PProd s zs l r))).

(** 88-107; torch.allclose: |a - b| <= 1e-8 + 1e-5 |b| *)
Definition mk_sum (cs : list pic) (ws : list R) (zs : scope) : result pic :=
  match cs with
  | [] => Err
  | _ =>
      if negb (Nat.eqb (length ws) (length cs)) then Err
      else if negb (forallb (fun w => rlt 0 w) ws) then Err
      else if negb (rle (Rabs (lsumR ws - 1)) (/ 10 ^ 8 + / 10 ^ 5)) then Err
      else if negb (all_equal (map pic_scope cs)) then Err
      else Ok (PSum ws zs cs)
  end.

(** ** rg2pic *)

Inductive strategy := AUTO | TUCKER | CP.

(** a function group (functional_sharing.py 212-268): C-sharing (true) or F-sharing, and its
    units in the order in which add_unit saw them; groups are numbered in order of creation,
    [g_key] is the key (depth, z_dim, y_dim) under which rg2pic looks it up (426-430) *)
Record group := mkGrp { g_key : nat * nat * nat; g_c : bool; g_units : list pic }.
Definition key_eqb (a b : nat * nat * nat) : bool :=
  (Nat.eqb (fst (fst a)) (fst (fst b)) && Nat.eqb (snd (fst a)) (snd (fst b)) && Nat.eqb (snd a) (snd b))%bool.

(** the arguments of rg2pic besides the region graph and the strategy.  The function factory
    is given the number of its call in addition to (z_dim, y_dim); the group factory returns
    the sharing type of the new group *)
Record factories := mkFact {
  leaf_factory : scope -> scope -> input;
  function_factory : option (nat -> nat -> nat -> list R -> list R -> R);
  sum_weights_factory : option (nat -> list R);
  group_factory : option (nat -> nat -> nat -> bool) }.

(** next_latent_id (239), number of function_factory calls, U (255), the groups (258) *)
Record state := mkSt { s_next : nat; s_calls : nat; s_units : list (region * pic); s_groups : list group }.

(** 247-253: depth of a region; leaves at depth 0.  Simplified: recomputed from the region
    instead of looked up in a dictionary *)
Fixpoint rdepth (r : region) : nat :=
  match r with
  | Region _ [] => 0
  | Region _ ps => S (list_max (map (fun p => list_max (map rdepth p)) ps))
  end.

(** 411-434: index and head of the group of an integral; [None]: no group.  [mk] builds the
    integral from its weighting *)
Fixpoint add_to (k : nat * nat * nat) (c : bool) (mk : weighting -> pic) (n : nat) (gs : list group) : list group * weighting :=
  match gs with
  | [] => ([mkGrp k c [mk (Grp n 0)]], Grp n 0)
  | g :: rest =>
      if key_eqb (g_key g) k
      then let w := Grp n (length (g_units g)) in (mkGrp (g_key g) (g_c g) (g_units g ++ [mk w]) :: rest, w)
      else let r := add_to k c mk (S n) rest in (g :: fst r, snd r)
  end.
Definition attach (F : factories) (depth zd yd : nat) (w : weighting) (mk : weighting -> pic) (st : state) : state * pic :=
  match group_factory F with
  | None => (st, mk w)
  | Some gf =>
      if Nat.eqb zd 0 then (st, mk w)
      else let r := add_to (depth, zd, yd) (gf depth zd yd) mk 0 (s_groups st) in
           (mkSt (s_next st) (s_calls st) (s_units st) (fst r), mk (snd r))
  end.

(** 241-245; [alloc rho]: Scope([]) for the root, a fresh latent otherwise (262, 342, 370) *)
Definition alloc (rho : bool) (st : state) : state * scope :=
  if rho then (st, empty_scope)
  else (mkSt (S (s_next st)) (s_calls st) (s_units st) (s_groups st), mkScope [s_next st] []).
(** 346, 374-375: one call of the function factory *)
Definition call_fn (F : factories) (zd yd : nat) (st : state) : state * weighting :=
  match function_factory F with
  | None => (st, NoFn)
  | Some ff => (mkSt (s_next st) (S (s_calls st)) (s_units st) (s_groups st), Fn (ff (s_calls st) zd yd))
  end.
(** an Integral: function, constructor, group (344-362 and 371-405) *)
Definition new_integral (F : factories) (depth : nat) (zs ys : scope) (c : pic) (st : state) : state * pic :=
  let zd := length (query zs) in
  let yd := length (query ys) in
  let (st1, w) := call_fn F zd yd st in
  attach F depth zd yd w (fun w => PInt zs ys w c) st1.

(** 319-408.  Simplified: with CP both functions are created before the integrals in the
    code, here each just before its integral; group insertions come last in both *)
Definition merge_units (F : factories) (strat : strategy) (depth : nat) (rho : bool) (u1 u2 : pic) (st : state) : result (state * pic) :=
  let z1 := latent u1 in
  let z2 := latent u2 in
  let chosen := match strat with AUTO => if scope_eqb z1 z2 then CP else TUCKER | s => s end in
  match chosen with
  | TUCKER =>
      bind (mk_prod u1 u2) (fun prod =>
        let (st1, zs) := alloc rho st in
        Ok (new_integral F depth zs (latent prod) prod st1))
  | _ =>
      if negb (scope_eqb z1 z2) then Err
      else if scope_empty z1 then Err
      else
        let (st1, zs) := alloc rho st in
        let (st2, i1) := new_integral F depth zs z1 u1 st1 in
        let (st3, i2) := new_integral F depth zs z2 u2 st2 in
        bind (mk_prod i1 i2) (fun p => Ok (st3, p))
  end.

(** 280: U[ch]; KeyError if absent *)
Fixpoint lookup (r : region) (l : list (region * pic)) : result pic :=
  match l with [] => Err | (t, u) :: rest => if same r t then Ok u else lookup r rest end.

(** 280-294: fold of the units of one partition, left to right; [rho] only counts for the last *)
Fixpoint fold_units (F : factories) (strat : strategy) (depth : nat) (rho : bool) (cur : pic) (us : list pic) (st : state) : result (state * pic) :=
  match us with
  | [] => Ok (st, cur)
  | u :: rest =>
      bind (merge_units F strat depth (match rest with [] => rho | _ => false end) cur u st) (fun r =>
        fold_units F strat depth rho (snd r) rest (fst r))
  end.
(** 272-295 *)
Definition partition_unit (F : factories) (strat : strategy) (depth : nat) (rho : bool) (p : list region) (st : state) : result (state * pic) :=
  if Nat.ltb (length p) 2 then Err
  else bind (mapR (fun ch => lookup ch (s_units st)) p) (fun us =>
    match us with [] => Err | u0 :: rest => fold_units F strat depth rho u0 rest st end).
Fixpoint partitions (F : factories) (strat : strategy) (depth : nat) (rho : bool) (ps : list (list region)) (st : state) : result (state * list pic) :=
  match ps with
  | [] => Ok (st, [])
  | p :: rest =>
      bind (partition_unit F strat depth rho p st) (fun r =>
      bind (partitions F strat depth rho rest (fst r)) (fun r2 => Ok (fst r2, snd r :: snd r2)))
  end.

Definition put (X : region) (u : pic) (st : state) : state := mkSt (s_next st) (s_calls st) ((X, u) :: s_units st) (s_groups st).
(** 260-307: one region *)
Definition region_step (F : factories) (strat : strategy) (root X : region) (st : state) : result state :=
  let rho := region_eqb X root in
  match r_children X with
  | [] =>
      let (st1, zs) := alloc rho st in
      let u := leaf_factory F (r_scope X) zs in
      if negb (scope_eqb (i_latent u) zs) then Err else Ok (put X (PLeaf u) st1)
  | ps =>
      bind (partitions F strat (rdepth X) rho ps st) (fun r =>
        match snd r with
        | [] => Err
        | [u] => Ok (put X u (fst r))
        | u :: us =>
            let n := length (u :: us) in
            let ws := match sum_weights_factory F with None => repeat (1 / INR n) n | Some g => g n end in
            if existsb (fun m => negb (scope_eqb (latent m) (latent u))) us then Err
            else bind (mk_sum (u :: us) ws (latent u)) (fun s => Ok (put X s (fst r)))
        end)
  end.
Fixpoint region_loop (F : factories) (strat : strategy) (root : region) (l : list region) (st : state) : result state :=
  match l with [] => Ok st | X :: rest => bind (region_step F strat root X st) (region_loop F strat root rest) end.

(** 206-316: the root unit and the groups created; 238-239: the first latent id *)
Definition rg2pic (F : factories) (strat : strategy) (root : region) : result (pic * list group) :=
  bind (region_loop F strat root (post_order root) (mkSt (S (list_max (query (r_scope root)))) 0 [] [])) (fun st =>
  bind (lookup root (s_units st)) (fun u => Ok (u, s_groups st))).

(** ** pic2qpc *)

(** 488-497: meshgrid (indexing "ij"), stacked and flattened row by row *)
Definition grid (q : rule) (n : nat) : list (list R) := cartesian (repeat (pts q) n).
(** torch.kron of two vectors; 499-507 *)
Definition kron (a b : list R) : list R := flat_map (fun x => map (Rmult x) b) a.
Fixpoint kron_loop (q : rule) (n : nat) (out : list R) : list R :=
  match n with O => out | S m => kron_loop q m (kron out (wts q)) end.
Definition kron_weights (q : rule) (n : nat) : list R := match n with O => [1] | S m => kron_loop q m (wts q) end.

(** WeightedSum(inputs=child, weights=w): weighted_sum.py 64-126, 187-199 *)
Definition mk_wsum (c : qmod) (w0 : wtensor) : result qmod :=
  if negb (weights_nonneg w0) then Err
  else
    let w := spread (features (q_shape c)) w0 in
    if negb (Nat.eqb (wF w) (features (q_shape c))) then Err
    else if negb (Nat.eqb (wI w) (channels (q_shape c))) then Err
    else Ok (mkQ (q_scope c) (mkShape (features (q_shape c)) (wO w) (wR w)) (fun x f o r =>
           lse (channels (q_shape c)) (fun i =>
             ladd (q_ll c x f i (bidx (repetitions (q_shape c)) r)) (lfrom (wv w f i o (bidx (wR w) r)))))).

Definition q_sc (m : qmod) : nat * nat := (features (q_shape m), channels (q_shape m)).
(** base_product.py 68-84: disjoint scopes and their join *)
Definition prod_scope (l r : qmod) : result scope :=
  bind (all_pairwise_disjoint [q_scope l; q_scope r]) (fun ok =>
  if negb ok then Err else join_all [q_scope l; q_scope r]).
(** OuterProduct(inputs=[left, right]): outer_product.py 54-88, 262-279; the check of the
    features at evaluation time is [outer_shape], see LayerModel *)
Definition mk_outer (l r : qmod) : result qmod :=
  bind (prod_scope l r) (fun s =>
  if negb (outer_check [q_sc l; q_sc r]) then Err
  else Ok (mkQ s (mkShape (features (q_shape l)) (outer_channels [channels (q_shape l); channels (q_shape r)]) (repetitions (q_shape l)))
             (fun x => outer_ll [q_tens l x; q_tens r x]))).
(** ElementwiseProduct(inputs=[left, right]): elementwise_product.py 69-94, 258-271 *)
Definition mk_elementwise (l r : qmod) : result qmod :=
  let ts := [mkT (q_shape l) (fun _ _ _ => NInf); mkT (q_shape r) (fun _ _ _ => NInf)] in
  bind (prod_scope l r) (fun s =>
  if negb (ew_accepts ts) then Err
  else if negb (ew_check [q_sc l; q_sc r]) then Err
  else Ok (mkQ s (mkShape (features (q_shape l)) (ew_channels ts) (repetitions (q_shape l)))
             (fun x => ew_ll [q_tens l x; q_tens r x]))).
(** Cat(inputs=ms, dim=2): cat.py 20-67, 98-106 *)
Definition mk_cat2 (ms : list qmod) : result qmod :=
  match ms with
  | [] => Err
  | m0 :: _ =>
      if negb (forallb (fun m => Nat.eqb (features (q_shape m)) (features (q_shape m0))) ms) then Err
      else if negb (all_equal (map q_scope ms)) then Err
      else Ok (mkQ (q_scope m0) (mkShape (features (q_shape m0)) (list_sum (map (fun m => channels (q_shape m)) ms)) (repetitions (q_shape m0)))
                 (fun x => catpick true (map (fun m => (q_shape m, q_ll m x)) ms)))
  end.

(** 580-605: the sum of the children with weights [ws]: Eq. (4), W = ||_i w_i I *)
Definition sum_weights (ws : list R) (n oc : nat) (i o : nat) : R :=
  if Nat.eqb (i mod oc) o then nth (i / oc) ws 0 else 0.
Definition mat_sum (ws : list R) (ms : list qmod) : result qmod :=
  match ms with
  | [] => Err
  | m0 :: rest =>
      let oc := channels (q_shape m0) in
      if existsb (fun m => negb (Nat.eqb (channels (q_shape m)) oc)) rest then Err
      else bind (mk_cat2 ms) (fun cat =>
        mk_wsum cat (mkW (features (q_shape cat)) (length ms * oc) oc 1 (fun _ i o _ => sum_weights ws (length ms) oc i o)))
  end.

(** 627-668 (and 530-568): an integral with the function [f] over the materialised child *)
Definition int_weights (q : rule) (zd yd : nat) (f : list R -> list R -> R) (i o : nat) : R :=
  f (nth o (grid q zd) []) (nth i (grid q yd) []) * nth i (kron_weights q yd) 0.
Definition mat_int (q : rule) (zd yd : nat) (f : list R -> list R -> R) (c : qmod) : result qmod :=
  let K := length (pts q) in
  if negb (Nat.eqb (channels (q_shape c)) (K ^ yd)) then Err
  else mk_wsum c (mkW (features (q_shape c)) (K ^ yd) (K ^ zd) 1 (fun _ i o _ => int_weights q zd yd f i o)).

Definition int_dims (p : pic) : nat * nat :=
  match p with PInt zs ys _ _ => (length (query zs), length (query ys)) | _ => (0, 0)%nat end.
Definition int_child (p : pic) : pic := match p with PInt _ _ _ c => c | _ => p end.
Definition int_head (p : pic) : nat := match p with PInt _ _ (Grp _ h) _ => h | _ => 0 end.
(** rows of evaluate_batched: functional_sharing.py 289-333 *)
Definition group_rows (g : group) : nat := if g_c g then length (g_units g) else 1%nat.

(** 509-568: one unit of a group, given its materialised child; integrals without
    conditioned latents are skipped here (527-529); [vals_all[head_idx]] raises when the head
    is out of range (562) *)
Definition mat_unit (q : rule) (g : group) (gf : nat -> list R -> list R -> R) (u : pic) (c : qmod) : result qmod :=
  let d := int_dims u in
  if negb (Nat.eqb (channels (q_shape c)) (length (pts q) ^ snd d)) then Err
  else if negb (Nat.ltb (int_head u) (group_rows g)) then Err
  else mat_int q (fst d) (snd d) (gf (int_head u)) c.

(** 570-670.  [fuel] bounds the depth of the recursion (Python raises RecursionError);
    [gf g h]: the function computed by head [h] of group [g] (for F-sharing head 0).
    Simplified: an integral with a group is one of the units of that group; the memo
    dictionary L only saves work and is left out *)
Fixpoint visit (q : rule) (gf : nat -> nat -> list R -> list R -> R) (G : list group) (fuel : nat) (u : pic) : result qmod :=
  match fuel with
  | O => Err
  | S n =>
      match u with
      | PLeaf i => i_mat i q
      | PSum ws _ cs => bind (mapR (visit q gf G n) cs) (mat_sum ws)
      | PProd _ _ l r =>
          bind (visit q gf G n l) (fun ml =>
          bind (visit q gf G n r) (fun mr =>
          if scope_eqb (latent l) (latent r) then mk_elementwise ml mr else mk_outer ml mr))
      | PInt zs ys w c =>
          let zd := length (query zs) in
          let yd := length (query ys) in
          match w with
          | NoFn => Err
          | Fn f => bind (visit q gf G n c) (mat_int q zd yd f)
          | Grp k h =>
              match nth_error G k with
              | None => Err
              | Some g =>
                  bind (mapR (fun v => visit q gf G n (int_child v)) (g_units g)) (fun ms =>
                  bind (mapR (fun vm => mat_unit q g (gf k) (fst vm) (snd vm))
                          (filter (fun vm => negb (Nat.eqb (fst (int_dims (fst vm))) 0)) (combine (g_units g) ms))) (fun _ =>
                  bind (visit q gf G n c) (fun mc =>
                  if Nat.eqb zd 0
                  then let h' := if g_c g then h else 0%nat in
                       if Nat.ltb h' (group_rows g) then mat_int q zd yd (gf k h') mc else Err
                  else mat_unit q g (gf k) u mc)))
              end
          end
      end
  end.

(** 437-672 with mode="expanded" *)
Definition pic2qpc (q : rule) (gf : nat -> nat -> list R -> list R -> R) (fuel : nat) (pg : pic * list group) : result qmod :=
  if negb (rule_ok q) then Err else visit q gf (snd pg) fuel (fst pg).
