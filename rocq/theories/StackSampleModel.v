(** Sampling from RatSPN and Einet: rat_spn.py 262-335, einet.py 376-472, and the
    _sample methods of the layers in between.

    One data row, integer routing (is_differentiable = False).  The context that
    reaches a layer is turned into the context handed to its input; [ev] is the cached
    log-likelihood tensor of the layer's input, if there is one.  An exception is
    [Raise].  A NaN among the cached log-likelihoods of a choice makes all its
    normalised logits NaN: Categorical raises, argmax returns 0. *)
From Coq Require Import List Arith Bool Reals.
From Verif Require Import Base ScopeModel CircuitModel SampleModel EmModel SplitModel LayerModel FactorModel StackModel StackPostModel.
Import ListNotations.
Local Open Scope R_scope.

Definition of_result {A} (x : result A) : prog A := match x with Ok a => Ret a | Err => Raise end.
(** validate_sampling_context with allowed_feature_widths = (1, w), then
    broadcast_feature_width to [n] (sampling_context.py 734-847, 493-532) *)
Definition enter (w nch nrep n : nat) (t : ctx) : result ctx :=
  if validate [1%nat; w] nch nrep t then broadcast n t else Err.
(** sampling_context.py 1170-1176 on logits some of which may be NaN *)
Definition pick_logits (mpe nan : bool) (n : nat) (g : nat -> lval) : prog nat :=
  if nan then (if mpe then Ret 0%nat else Raise) else sample_logits mpe n g.
(** the picks of all features, left to right *)
Fixpoint picks {A} (pick : nat -> nat -> prog A) (f : nat) (ci : list nat) : prog (list A) :=
  match ci with
  | [] => Ret []
  | c :: rest => pbind (pick f c) (fun a => pbind (picks pick (S f) rest) (fun l => Ret (a :: l)))
  end.
(** split_consecutive.py 119-140, split_interleaved.py 121-167: a split into [n] parts
    passes the context on to its input: width one is broadcast, the width of a part is
    repeated for every part (sampling_context.py 534-574), for interleaved splits
    transposed from (part feature) to (feature part) *)
Definition spread {A} (k : split_kind) (n w : nat) (d : A) (l : list A) : list A :=
  match k with
  | Interleaved => map (fun j => nth (j / n) l d) (seq 0 (w * n))
  | _ => concat (repeat l n)
  end.
Definition split_enter (k : split_kind) (n : nat) (l : layer) (t : ctx) : result ctx :=
  let s := l_in l in
  let F := features s in
  let w := (F / n)%nat in
  if validate [1%nat; F; w] (channels s) (repetitions s) t then
    bind (if (Nat.eqb (length (c_ci t)) 1 && Nat.ltb 1 F)%bool then broadcast F t else Ok t) (fun t1 =>
    if Nat.eqb (length (c_ci t1)) F then Ok t1
    else if negb (Nat.eqb (F mod n) 0) then Err
    else if negb (Nat.eqb (length (c_ci t1)) w) then Err
    else Ok (mkCtx (spread k n w 0%nat (c_ci t1)) (spread k n w false (c_mask t1)) (c_rep t1)))
  else Err.
(** apply to every element; any error is an error *)
Fixpoint rmap {A B} (g : A -> result B) (l : list A) : result (list B) :=
  match l with [] => Ok [] | a :: rest => bind (g a) (fun b => bind (rmap g rest) (fun bs => Ok (b :: bs))) end.

(** *** products of a split: base_product.py 132-189 *)
(** outer_product.py 181-190, elementwise_product.py 186-193, base_product.py 180-182:
    the channels of the input behind output channel [c] *)
Definition prod_channels (outer : bool) (C n c : nat) : result (list nat) :=
  bind (if outer then outer_map (repeat C 2) c else Ok (repeat c n)) (fun l =>
  Ok (if Nat.eqb C 1 then map (fun _ => 0%nat) l else l)).
(** the number of parts the masks are repeated for: num_splits of the product, which for
    OuterProduct is the constructor's default (outer_product.py 61, 224) *)
Definition prod_parts (outer : bool) (n : nat) : nat := if outer then 2%nat else n.
Definition prod_route (outer : bool) (k : split_kind) (n : nat) (l : layer) (t : ctx) : result ctx :=
  let so := l_out l in
  bind (enter (features so) (channels so) (repetitions so) (features so) t) (fun t1 =>
  bind (rmap (prod_channels outer (channels (l_in l)) n) (c_ci t1)) (fun cs =>
  let m := prod_parts outer n in
  bind (unsplit k (features so) m (fun f i => nth i (nth f cs []) 0%nat)) (fun ci =>
  bind (unsplit k (features so) m (fun f i => nth f (c_mask t1) false)) (fun mk =>
  split_enter k n l (mkCtx ci mk (c_rep t1)))))).

(** *** Sum: sum.py 300-376 *)
Definition osum_pick (mpe : bool) (C co nr : nat) (lg : nat -> nat -> nat -> nat -> R) (ev : option nt) (r f c : nat) : prog nat :=
  if (Nat.ltb c co && Nat.ltb r nr)%bool then
    match ev with
    | None => sample_logits mpe C (fun i => Fin (lg f i c r))
    | Some t => if Nat.ltb r (repetitions (t_sh (n_t t)))
                then pick_logits mpe (anyb C (fun i => n_nan t f i r)) C (fun i => ladd (Fin (lg f i c r)) (t_ll (n_t t) f i r))
                else Raise
    end
  else Raise.
(** *** RepetitionMixingLayer: repetition_mixing_layer.py 115-157 *)
Definition omix_pick (mpe : bool) (C nr : nat) (lg : nat -> nat -> nat -> R) (ev : option nt) : prog nat :=
  match ev with
  | None => repmix_pick mpe C nr lg None
  | Some t => if anyb C (fun c => anyb nr (fun r => n_nan t 0%nat c r)) then (if mpe then Ret 0%nat else Raise)
              else repmix_pick mpe C nr lg (Some (t_ll (n_t t)))
  end.
(** *** LinsumLayer, EinsumLayer: linsum_layer.py 318-421, einsum_layer.py 422-555; the
    cached tensors are the two parts of the split (374-381, 486-493) *)
Definition halves (t : nt) : result (nt * nt) :=
  match split_idx Interleaved 2 (features (t_sh (n_t t))) with
  | Ok [a; b] => Ok (take t a, take t b)
  | _ => Err
  end.
Definition pair_pick (mpe lin : bool) (C co nr : nat) (llg : nat -> nat -> nat -> nat -> R) (elg : pair_logits) (ev : option (nt * nt)) (r f c : nat)
  : prog (nat * nat) :=
  if (Nat.ltb c co && Nat.ltb r nr)%bool then
    let go ev' := if lin then linsum_pick mpe C llg ev' f c r else einsum_pick mpe C C elg ev' f c r in
    match ev with
    | None => go None
    | Some (a, b) =>
        if Nat.ltb r (repetitions (t_sh (n_t a)))
        then if anyb C (fun i => n_nan a f i r || n_nan b f i r)%bool then (if mpe then Ret (0%nat, 0%nat) else Raise)
             else go (Some (t_ll (n_t a), t_ll (n_t b)))
        else Raise
    end
  else Raise.
(** linsum_layer.py 434-440, einsum_layer.py 566-572; the layers split interleaved *)
Definition pair_route (l : layer) (t1 : ctx) (ps : list (nat * nat)) : prog ctx :=
  of_result (bind (half_channels Interleaved (map fst ps) (map snd ps)) (fun ci =>
             split_enter Interleaved 2 l (mkCtx ci (half_mask (c_mask t1)) (c_rep t1)))).

(** one layer *)
Definition layer_route (mpe : bool) (l : layer) (ev : option nt) (t : ctx) : prog ctx :=
  let C := channels (l_in l) in
  match l_op l with
  | OProd outer k n => of_result (prod_route outer k n l t)
  | OSum co nr lg =>
      let F := features (l_out l) in
      pbind (of_result (enter F co nr F t)) (fun t1 =>
      pbind (picks (osum_pick mpe C co nr lg ev (c_rep t1)) 0 (c_ci t1)) (fun ns => Ret (mkCtx ns (c_mask t1) (c_rep t1))))
  | OMix co nr lg =>
      let F := features (l_out l) in
      pbind (of_result (enter F co nr F t)) (fun t1 =>
      if negb (Nat.eqb F 1) then Raise
      else pbind (omix_pick mpe co nr lg ev) (fun r => Ret (mkCtx (c_ci t1) (c_mask t1) r)))
  | OLin co nr lg =>
      let F := features (l_out l) in
      pbind (of_result (enter F co nr F t)) (fun t1 =>
      pbind (of_result (match ev with None => Ok None | Some e => bind (halves e) (fun h => Ok (Some h)) end)) (fun hv =>
      pbind (picks (pair_pick mpe true C co nr lg (fun _ _ _ _ _ => 0) hv (c_rep t1)) 0 (c_ci t1)) (pair_route l t1)))
  | OEin _ co nr lg =>
      let F := features (l_out l) in
      pbind (of_result (enter F co nr F t)) (fun t1 =>
      pbind (of_result (match ev with None => Ok None | Some e => bind (halves e) (fun h => Ok (Some h)) end)) (fun hv =>
      pbind (picks (pair_pick mpe false C co nr (fun _ _ _ _ => 0) lg hv (c_rep t1)) 0 (c_ci t1)) (pair_route l t1)))
  | OAll => (* product.py 102-120 *)
      of_result (enter (features (l_out l)) (channels (l_out l)) (repetitions (l_out l)) (features (l_in l)) t)
  end.

(** from the top of the stack (the end of the list) down to its base; [ev] is the cached
    tensor of the base *)
Fixpoint down (mpe : bool) (ls : list layer) (ev : option nt) (t : ctx) : prog ctx :=
  match ls with
  | [] => Ret t
  | l :: rest =>
      match ev with
      | None => pbind (down mpe rest None t) (layer_route mpe l None)
      | Some e => match run l e with
                  | Ok e' => pbind (down mpe rest (Some e') t) (layer_route mpe l (Some e))
                  | Err => Raise
                  end
      end
  end.

(** layers, Factorize (factorize.py 186-209), leaves; [ev] is the row whose
    log-likelihoods the cache holds *)
Definition stack_sample_from (mpe : bool) (W : nat) (k : stack) (ls : list layer) (ev : option row) (t : ctx) (x : row) : prog row :=
  pbind (of_result (match ev with
                    | None => Ok None
                    | Some e => bind (leaf_tensor (k_leaf k) e) (fun b => bind (fact_run (k_fact k) b) (fun b' => Ok (Some b')))
                    end)) (fun base =>
  pbind (down mpe ls base t) (fun t1 =>
  pbind (of_result (fact_route (k_fact k) t1)) (fun t2 => sample_m mpe W ev (k_leaf k) t2 x))).

(** rat_spn.py 293-335, einet.py 444-472: with several root nodes / classes the channel is
    drawn from the root logits (not from a posterior) and the root node is skipped *)
Definition stack_sample (mpe : bool) (W n : nat) (k : stack) (ev : option row) (x : row) : prog row :=
  if Nat.ltb 1 n
  then pbind (of_result (root_logits k)) (fun lg =>
       pbind (sample_logits mpe n (fun j => Fin (lg j))) (fun c =>
       stack_sample_from mpe W k (removelast (k_layers k)) ev (mkCtx [c] [true] 0) x))
  else stack_sample_from mpe W k (k_layers k) ev init_ctx x.

(** RatSPN.sample(data=x): no log-likelihoods are cached *)
Definition rat_sample (mpe : bool) (W : nat) (c : rat_cfg) (k : stack) (x : row) : prog row :=
  stack_sample mpe W (ra_root c) k None x.
(** module.py 297-329 for RatSPN: log_likelihood fills the cache *)
Definition rat_sample_with_evidence (mpe : bool) (W : nat) (c : rat_cfg) (k : stack) (e : row) : prog row :=
  match stack_ll k e with
  | Err => Raise
  | Ok _ => if forallb (fun v => Nat.ltb v W) (query (scope_of (k_leaf k))) then stack_sample mpe W (ra_root c) k (Some e) e else Raise
  end.

(** einet.py 376-379: the batch has missing and observed cells *)
Definition partial_evidence (W : nat) (rows : list row) : bool :=
  (existsb (fun x : row => existsb (fun v => isnone (x v)) (seq 0 W)) rows
   && existsb (fun x : row => existsb (fun v => negb (isnone (x v))) (seq 0 W)) rows)%bool.
(** Einet.sample(data=rows) on the row [x] of the batch: einet.py 424-472 *)
Definition einet_sample (mpe : bool) (W : nat) (c : ein_cfg) (k : stack) (rows : list row) (x : row) : prog row :=
  let so := stack_shape k in
  if validate [1%nat; features so] (channels so) (ei_reps c) init_ctx then
    if partial_evidence W rows then
      match stack_ll k x with
      | Err => Raise
      | Ok _ => if forallb (fun v => Nat.ltb v W) (query (scope_of (k_leaf k))) then stack_sample mpe W (ei_classes c) k (Some x) x else Raise
      end
    else stack_sample mpe W (ei_classes c) k None x
  else Raise.
