(** Model of the layer stacks of spflow/zoo/rat/rat_spn.py (RatSPN) and
    spflow/zoo/einet/einet.py (Einet): which layers are built, with which declared
    shapes, and how the stack evaluates one data row.

    Every module of these models has a single input, so a model is the list of its
    layers from the Factorize layer upwards.  The layers' arithmetic is that of
    LayerModel.v and FactorModel.v.  Leaves: any module of CircuitModel.v.
    Integer routing only; split modes "consecutive" and "interleaved" ("by_index"
    is not modelled here). *)
From Coq Require Import List Arith Bool.
From Verif Require Import Base ScopeModel CircuitModel SampleModel EmModel SplitModel LayerModel FactorModel.
Import ListNotations.
Local Open Scope R_scope.

(** A log-likelihood tensor of one data row that may contain NaN: where [n_nan] is
    true the entry is NaN and the number in [n_t] is meaningless.  Sums and
    log-sum-exps with a NaN argument are NaN. *)
Record nt := mkN { n_t : tens; n_nan : nat -> nat -> nat -> bool }.
Definition nval (t : nt) (f c r : nat) : fl := if n_nan t f c r then FNan else of_lval (t_ll (n_t t) f c r).
Definition anyb (n : nat) (p : nat -> bool) : bool := existsb p (seq 0 n).

(** ** Splits: the input features of every part (split_consecutive.py 80-82,
    split_interleaved.py 89-99) *)
Definition split_idx (k : split_kind) (n F : nat) : result (list (list nat)) :=
  match k with
  | Consecutive => split_consecutive n (seq 0 F)
  | Interleaved => Ok (split_interleaved n (seq 0 F))
  | ByIndex => Err
  end.
Definition take (t : nt) (idx : list nat) : nt :=
  mkN (mkT (mkShape (length idx) (t_ch (n_t t)) (repetitions (t_sh (n_t t)))) (fun f => t_ll (n_t t) (nth f idx 0%nat)))
      (fun f => n_nan t (nth f idx 0%nat)).
Definition no_nt : nt := mkN no_tens (fun _ _ _ => false).
(** split.py 186-208 with dim = 1: the shapes check_shapes sees; the "split size" is
    the entry at position 1 of (features, channels), the number of channels *)
Definition get_out_shapes (n a b : nat) : list (nat * nat) :=
  if Nat.eqb (b mod n) 0 then repeat (a, (b / n)%nat) n
  else repeat (a, (b / n)%nat) (n - 1) ++ [(b, (b mod n)%nat)].

(** ** The layers *)
Inductive op :=
| OProd (outer : bool) (k : split_kind) (n : nat)                      (* Outer/ElementwiseProduct of a split *)
| OSum (co nr : nat) (lg : nat -> nat -> nat -> nat -> R)              (* Sum; logits f ci co r *)
| OMix (co nr : nat) (lg : nat -> nat -> nat -> R)                     (* RepetitionMixingLayer; logits f co r *)
| OLin (co nr : nat) (lg : nat -> nat -> nat -> nat -> R)              (* LinsumLayer; logits f co r ci *)
| OEin (sc : schedule) (co nr : nat) (lg : pair_logits)                (* EinsumLayer; logits f co r i j *)
| OAll.                                                                (* Product *)
(** a constructed layer, with its input's and its own declared out_shape *)
Record layer := mkLay { l_op : op; l_in : shape; l_out : shape }.

(** The constructors: out_shape from the input's out_shape.
    OProd: elementwise_product.py 69-94, 100-109; outer_product.py 54-88, 100-117 (the
    split's number of parts is checked first, 101-117; afterwards num_splits is the
    constructor's default 2, line 61).
    OSum: sum.py 94-115.  OMix: repetition_mixing_layer.py 37-40.
    OLin, OEin: linsum_layer.py 119-150, einsum_layer.py 126-159.  OAll: product.py 46-48.
    Initial weights are random, assigned weights arbitrary: any logits. *)
Definition decl (o : op) (s : shape) : result shape :=
  let F := features s in let C := channels s in let Rr := repetitions s in
  match o with
  | OProd false k n =>
      let of := if Nat.eqb F 1 then 1%nat else (F / n)%nat in
      if ew_check (get_out_shapes n of C) then Ok (mkShape of C Rr) else Err
  | OProd true k n =>
      if outer_check (get_out_shapes n (F / n) (C ^ n)) then Ok (mkShape (F / 2) (outer_channels (repeat C 2)) Rr) else Err
  | OSum co nr _ => if Nat.ltb co 1 then Err else Ok (mkShape F co nr)
  | OMix co nr _ => if Nat.ltb co 1 then Err else if negb (Nat.eqb co C) then Err else Ok (mkShape F co nr)
  | OLin co nr _ | OEin _ co nr _ =>
      if Nat.ltb F 2 then Err else if negb (Nat.eqb (F mod 2) 0) then Err else if Nat.ltb co 1 then Err
      else Ok (mkShape (F / 2) co nr)
  | OAll => Ok (mkShape 1 C Rr)
  end.
Definition shape_eqb (a b : shape) : bool :=
  (Nat.eqb (features a) (features b) && Nat.eqb (channels a) (channels b) && Nat.eqb (repetitions a) (repetitions b))%bool.

(** log_likelihood of one layer on its input's tensor.
    OProd: base_product.py 249-253, elementwise_product.py 258-271, outer_product.py
    262-279; [view] needs the declared shape.
    OSum: sum.py 265-280, repetitions broadcast.  OMix: repetition_mixing_layer.py 184-198.
    OLin: linsum_layer.py 272-296.  OEin: einsum_layer.py 372-380, 398-400.
    OAll: product.py 74-82.
    Simplified: a mismatch between the declared and the actual number of features,
    channels or (OMix, OLin, OEin) repetitions is an error, also where torch would
    broadcast an extent of one. *)
Definition run (l : layer) (t : nt) : result nt :=
  let s := t_sh (n_t t) in
  let F := features s in let C := channels s in let Rr := repetitions s in
  if negb (Nat.eqb F (features (l_in l)) && Nat.eqb C (channels (l_in l)))%bool then Err else
  match l_op l with
  | OProd outer k n =>
      bind (split_idx k n F) (fun idx =>
      let ps := map (take t) idx in
      let ts := map n_t ps in
      bind (if outer then outer_shape ts else ew_shape ts) (fun s' =>
      if negb (shape_eqb s' (l_out l)) then Err
      else Ok (mkN (mkT s' (if outer then outer_ll ts else ew_ll ts))
                   (fun f c r =>
                      if outer
                      then anyb (length ps) (fun i => n_nan (nth i ps no_nt) f (nth i (nth c (iproduct (map t_ch ts)) []) 0%nat) r)
                      else anyb (length ps) (fun i => n_nan (nth i ps no_nt) f (bidx C c) r)))))
  | OSum co nr lg =>
      bind (bcast Rr nr) (fun r' =>
      Ok (mkN (mkT (mkShape F co r')
                   (fun f o r => lse C (fun c => ladd (t_ll (n_t t) f c (bidx Rr r))
                                                     (Fin (log_softmax C (fun j => lg f j o (bidx nr r)) c)))))
              (fun f o r => anyb C (fun c => n_nan t f c (bidx Rr r)))))
  | OMix co nr lg =>
      if negb (Nat.eqb Rr nr) then Err
      else Ok (mkN (mkT (mkShape F co 1) (fun f c _ => repmix_ll nr lg (t_ll (n_t t)) f c))
                   (fun f c _ => anyb nr (fun r => n_nan t f c r)))
  | OLin co nr lg =>
      if negb (Nat.eqb Rr nr) then Err
      else match split_idx Interleaved 2 F with
           | Ok [a; b] =>
               let l_ := take t a in let r_ := take t b in
               Ok (mkN (mkT (mkShape (F / 2) co nr) (linsum_ll C lg (t_ll (n_t l_)) (t_ll (n_t r_))))
                       (fun f o r => anyb C (fun c => n_nan l_ f c r || n_nan r_ f c r)%bool))
           | _ => Err
           end
  | OEin sc co nr lg =>
      if negb (Nat.eqb Rr nr) then Err
      else match split_idx Interleaved 2 F with
           | Ok [a; b] =>
               let l_ := take t a in let r_ := take t b in
               let v f o r := einsum_ll sc C C lg (t_ll (n_t l_)) (t_ll (n_t r_)) f o r in
               Ok (mkN (mkT (mkShape (F / 2) co nr) (fun f o r => to_lval (v f o r)))
                       (fun f o r => anyb C (fun c => n_nan l_ f c r || n_nan r_ f c r)%bool || is_nan (v f o r))%bool)
           | _ => Err
           end
  | OAll => Ok (mkN (mkT (mkShape 1 C Rr) (fun _ c r => ladds F (fun f => t_ll (n_t t) f c r)))
                    (fun _ c r => anyb F (fun f => n_nan t f c r)))
  end.

(** a stack of layers, bottom first *)
Fixpoint assemble (s : shape) (ops : list op) : result (list layer) :=
  match ops with
  | [] => Ok []
  | o :: rest => bind (decl o s) (fun s' => bind (assemble s' rest) (fun ls => Ok (mkLay o s s' :: ls)))
  end.
Fixpoint run_all (ls : list layer) (t : nt) : result nt :=
  match ls with
  | [] => Ok t
  | l :: rest => bind (run l t) (run_all rest)
  end.
Definition top_shape (s : shape) (ls : list layer) : shape := last (map l_out ls) s.

(** ** Factorize on the leaves (factorize.py 52-57, 71-73, 143-166) *)
Record stack := mkStack { k_leaf : module; k_fact : fact; k_layers : list layer }.
Definition fact_shape (m : fact) : shape := mkShape (fc_out m) (fc_ch m) (fc_reps m).
(** 52-57: a list of several leaf modules is concatenated along the features *)
Definition leaf_input (leaves : list module) : result module :=
  match leaves with [] => Err | [m] => Ok m | ms => mk_cat false ms end.
(** The random draws of a Factorize layer: the shuffled group sizes, the permutations. *)
Record draw := mkDraw { d_sizes : list nat; d_perms : nat -> list nat }.
Definition factorize_leaves (leaves : list module) (depth reps : nat) (d : draw) : result (module * fact) :=
  bind (leaf_input leaves) (fun m =>
  bind (mk_factorize (length (query (scope_of m))) (features (out_shape m)) (channels (out_shape m)) depth reps
                     (d_sizes d) (d_perms d)) (fun f => Ok (m, f))).
(** 143-166 as a tensor; the repetitions of the leaves broadcast against those of the
    0/1 matrix *)
Definition leaf_tensor (m : module) (x : row) : result tens :=
  bind (ll_shape m) (fun s => Ok (mkT s (loglik m x))).
Definition fact_run (m : fact) (t : tens) : result nt :=
  bind (bcast (repetitions (t_sh t)) (fc_reps m)) (fun rr =>
  let out f c r := fact_ll m (fun i c r => t_ll t i c (bidx (repetitions (t_sh t)) r)) f c (bidx (fc_reps m) r) in
  match out 0%nat 0%nat 0%nat with
  | Err => Err
  | Ok _ =>
      Ok (mkN (mkT (mkShape (fc_out m) (fc_ch m) rr)
                   (fun f c r => match out f c r with Ok (Some v) => v | _ => NInf end))
              (fun f c r => match out f c r with Ok (Some _) => false | _ => true end))
  end).
(** log_likelihood of the whole model: rat_spn.py 199-218, einet.py 313-334 *)
Definition stack_ll (k : stack) (x : row) : result nt :=
  bind (leaf_tensor (k_leaf k) x) (fun t => bind (fact_run (k_fact k) t) (run_all (k_layers k))).
(** the model's declared out_shape (rat_spn.py 124, einet.py 135) *)
Definition stack_shape (k : stack) : shape := top_shape (fact_shape (k_fact k)) (k_layers k).

(** ** RatSPN *)
Record rat_cfg := mkRat { ra_root : nat; ra_region : nat; ra_reps : nat; ra_depth : nat; ra_outer : bool;
                          ra_mode : option (split_kind * nat); ra_splits : nat }.
(** parameters: logits of the Sum of every level, of the mixing layer, of the root *)
Record rat_par := mkRP { rp_sum : nat -> nat -> nat -> nat -> nat -> R; rp_mix : nat -> nat -> nat -> R;
                         rp_root : nat -> nat -> nat -> nat -> R }.
(** split.py 50-51: SplitMode needs at least two parts *)
Definition split_mode (k : split_kind) (n : nat) : result (split_kind * nat) :=
  if Nat.ltb n 2 then Err else Ok (k, n).
(** rat_spn.py 99 *)
Definition rat_mode (c : rat_cfg) : result (split_kind * nat) :=
  match ra_mode c with
  | Some (k, n) => split_mode k n
  | None => split_mode Consecutive (ra_splits c)
  end.
(** rat_spn.py 145-174: level i of the loop *)
Definition rat_level (c : rat_cfg) (p : rat_par) (k : split_kind) (n i : nat) : list op :=
  [OProd (ra_outer c) k n;
   OSum (if Nat.eqb i 0 then (if Nat.eqb (ra_depth c) 1 then ra_root c else ra_region c)
         else if Nat.eqb i (ra_depth c - 1) then ra_root c else ra_region c)
        (ra_reps c) (rp_sum p i)].
(** rat_spn.py 126-185.  Depth 0: the mixing layer has no input and raises (sum.py 73-74) *)
Definition rat_ops (c : rat_cfg) (p : rat_par) (k : split_kind) (n : nat) : result (list op) :=
  if Nat.eqb (ra_depth c) 0 then Err
  else Ok (flat_map (rat_level c p k n) (seq 0 (ra_depth c))
           ++ OMix (ra_root c) (ra_reps c) (rp_mix p)
           :: (if Nat.ltb 1 (ra_root c) then [OSum 1 1 (rp_root p)] else [])).
(** rat_spn.py 90-124; the leaves' channels are those of the first leaf module (93) *)
Definition mk_rat (leaves : list module) (c : rat_cfg) (p : rat_par) (d : draw) : result stack :=
  match leaves with
  | [] => Err
  | l0 :: _ =>
      bind (rat_mode c) (fun km =>
      bind (join_all (map scope_of leaves)) (fun _ =>
      if Nat.ltb (ra_root c) 1 then Err
      else if Nat.ltb (ra_region c) 1 then Err
      else if Nat.ltb (channels (out_shape l0)) 1 then Err
      else if Nat.ltb (ra_splits c) 2 then Err
      else
      bind (factorize_leaves leaves (ra_depth c) (ra_reps c) d) (fun mf =>
      bind (rat_ops c p (fst km) (snd km)) (fun ops =>
      bind (assemble (fact_shape (snd mf)) ops) (fun ls =>
      Ok (mkStack (fst mf) (snd mf) ls))))))
  end.

(** ** Einet *)
Inductive ltype := Einsum (sc : schedule) | Linsum.
Record ein_cfg := mkEin { ei_classes : nat; ei_sums : nat; ei_leaves : nat; ei_depth : nat; ei_reps : nat;
                          ei_type : ltype; ei_topdown : bool }.
Record ein_par := mkEP { ep_lin : nat -> nat -> nat -> nat -> nat -> R; ep_ein : nat -> pair_logits;
                         ep_zero : nat -> nat -> nat -> nat -> R; ep_class : nat -> nat -> nat -> nat -> R;
                         ep_mix : nat -> nat -> nat -> R; ep_root : nat -> nat -> nat -> nat -> R }.
(** einet.py 137-142 *)
Definition ein_layer (c : ein_cfg) (p : ein_par) (i co : nat) : op :=
  match ei_type c with
  | Einsum sc => OEin sc co (ei_reps c) (ep_ein p i)
  | Linsum => OLin co (ei_reps c) (ep_lin p i)
  end.
(** einet.py 144-171: the layers added on top of a stack with declared shape [s] *)
Definition finalize (c : ein_cfg) (p : ein_par) (collapse : bool) (s : shape) : list op :=
  (if (collapse && Nat.ltb 1 (features s))%bool then [OAll] else [])
  ++ (if negb (Nat.eqb (channels s) (ei_classes c)) then [OSum (ei_classes c) (ei_reps c) (ep_class p)] else [])
  ++ (if Nat.ltb 1 (ei_reps c) then [OMix (ei_classes c) (ei_reps c) (ep_mix p)] else [])
  ++ (if Nat.ltb 1 (ei_classes c) then [OSum 1 1 (ep_root p)] else []).
(** einet.py 173-246: the layer built at [i] (i = depth .. 1) *)
Definition ein_topdown_ops (c : ein_cfg) (p : ein_par) : list op :=
  if Nat.eqb (ei_depth c) 0 then [OSum (ei_classes c) (ei_reps c) (ep_zero p)]
  else map (fun i => ein_layer c p i (if Nat.eqb i 1 then ei_classes c else ei_sums c)) (rev (seq 1 (ei_depth c))).
(** einet.py 273-291 *)
Definition ein_bottomup_ops (c : ein_cfg) (p : ein_par) : list op :=
  if Nat.eqb (ei_depth c) 0 then [OSum (ei_sums c) (ei_reps c) (ep_zero p)]
  else map (fun i => ein_layer c p i (ei_sums c)) (seq 0 (ei_depth c)).
(** einet.py 88-135.  int(np.log2(n)) is the integer logarithm (262). *)
Definition mk_einet (leaves : list module) (c : ein_cfg) (p : ein_par) (d : draw) : result stack :=
  if Nat.ltb (ei_classes c) 1 then Err
  else if Nat.ltb (ei_sums c) 1 then Err
  else if Nat.ltb (ei_leaves c) 1 then Err
  else if Nat.ltb (ei_reps c) 1 then Err
  else
  bind (join_all (map scope_of leaves)) (fun sc =>
  let nf := length (query sc) in
  if Nat.ltb nf (2 ^ ei_depth c) then Err
  else
  let fd := if ei_topdown c then ei_depth c else if Nat.ltb 1 nf then Nat.log2 nf else 0%nat in
  bind (factorize_leaves leaves fd (ei_reps c) d) (fun mf =>
  let ops := if ei_topdown c then ein_topdown_ops c p else ein_bottomup_ops c p in
  bind (assemble (fact_shape (snd mf)) ops) (fun ls =>
  let s := top_shape (fact_shape (snd mf)) ls in
  bind (assemble s (finalize c p (negb (ei_topdown c)) s)) (fun top =>
  Ok (mkStack (fst mf) (snd mf) (ls ++ top)))))).
