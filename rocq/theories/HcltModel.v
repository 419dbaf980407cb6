(** Model of zoo/hclt/learn.py: circuits of hidden Chow-Liu trees.

    All modules of these circuits have one feature and one repetition.  The leaves are
    functions of the row, one per channel.  Devices and dtypes are not modelled. *)
From Coq Require Import List Arith ZArith Bool Reals.
From Verif Require Import Base ScopeModel CircuitModel LayerModel MstModel HcltMiModel.
Import ListNotations.
Local Open Scope R_scope.

(** The modules that occur: a leaf over variable [v] with [ch] channels; Sum of one
    module, [v] naming the node whose states it sums over, with logits by input and
    output channel; ElementwiseProduct; the final Sum over several single-channel
    circuits (which wraps Cat along the channels: sum.py 100-104). *)
Inductive hmod :=
| HLeaf (v ch : nat) (p : nat -> row -> lval)
| HSum (v oc : nat) (lg : nat -> nat -> R) (c : hmod)
| HMul (ins : list hmod)
| HMix (lg : nat -> R) (ins : list hmod).

(** scope (base_product.py 77, sum.py 109, cat.py 55), as a list *)
Fixpoint hvars (m : hmod) : list nat :=
  match m with
  | HLeaf v _ _ => [v]
  | HSum _ _ _ c => hvars c
  | HMul ins => flat_map hvars ins
  | HMix _ ins => match ins with [] => [] | c :: _ => hvars c end
  end.
(** out_shape.channels (sum.py 113-115, elementwise_product.py 92) *)
Fixpoint hch (m : hmod) : nat :=
  match m with
  | HLeaf _ ch _ => ch
  | HSum _ oc _ _ => oc
  | HMul ins => list_max (map hch ins)
  | HMix _ _ => 1
  end.
(** log_likelihood of one row (sum.py 244-280, elementwise_product.py 238-273): a tensor *)
Fixpoint hten (m : hmod) (x : row) : tens :=
  match m with
  | HLeaf _ ch p => mkT (mkShape 1 ch 1) (fun _ c _ => p c x)
  | HSum _ oc lg c =>
      let t := hten c x in
      mkT (mkShape 1 oc 1) (fun f o r => lse (t_ch t) (fun i => ladd (t_ll t f i r) (Fin (log_softmax (t_ch t) (fun i => lg i o) i))))
  | HMul ins =>
      let ts := map (fun i => hten i x) ins in
      mkT (match ew_shape ts with Ok s => s | Err => mkShape 0 0 0 end) (ew_ll ts)
  | HMix lg ins =>
      mkT (mkShape 1 1 1) (fun f _ r => lse (length ins) (fun i =>
        ladd (nth i (map (fun m => t_ll (hten m x) f 0%nat r) ins) NInf) (Fin (log_softmax (length ins) lg i))))
  end.
(** log_likelihood of the single output *)
Definition hll (m : hmod) (x : row) : lval := t_ll (hten m x) 0 0 0.

(** ElementwiseProduct(inputs=[...]): base_product.py 50-80 (disjoint scopes),
    elementwise_product.py 72-80 (channels, broadcastable shapes); all inputs have one
    feature *)
Fixpoint pairwise_disj (l : list (list nat)) : bool :=
  match l with [] => true | a :: r => (forallb (disjb a) r && pairwise_disj r)%bool end.
Definition mk_mul (ins : list hmod) : result hmod :=
  match ins with
  | [] => Err
  | _ => if negb (pairwise_disj (map hvars ins)) then Err
         else if negb (forallb (fun m => Nat.eqb (hch m) 1 || Nat.eqb (hch m) (list_max (map hch ins)))%bool ins) then Err
         else if negb (ew_check (map (fun m => (1%nat, hch m)) ins)) then Err
         else Ok (HMul ins)
  end.
(** Sum(inputs=c, weights=w) with w of shape (1, ni, no, 1): sum.py 128-169, 209-222 *)
Definition mk_hsum_w (v : nat) (c : hmod) (ni no : nat) (w : nat -> nat -> R) : result hmod :=
  if Nat.ltb no 1 then Err
  else if negb (Nat.eqb ni (hch c)) then Err
  else if negb (allb ni (fun i => allb no (fun o => rlt 0 (w i o)))) then Err
  else if negb (allb no (fun o => close1 (bsum ni (fun i => w i o)))) then Err
  else Ok (HSum v no (fun i o => ln (w i o)) c).
(** Sum(inputs=c): one output channel, random weights (sum.py 49, 179-183); [rnd] is
    what torch.rand returned *)
Definition mk_hsum_rand (v : nat) (c : hmod) (rnd : nat -> nat -> R) : result hmod :=
  let raw i := rnd i 0%nat + / 10 ^ 8 in
  mk_hsum_w v c (hch c) 1 (fun i _ => raw i / bsum (hch c) raw).

(** the argument init, with the random numbers drawn for the sum of each node *)
Inductive hinit := Uniform | Random (rnd : nat -> nat -> nat -> R).

(** ** _edges_to_adjacency: 23-32 (edges are non-negative) *)
Definition edges_ok (n : nat) (edges : list medge) : bool :=
  forallb (fun e => Nat.ltb (fst e) n && Nat.ltb (snd e) n && negb (Nat.eqb (fst e) (snd e)))%bool edges.
Definition adjacent (edges : list medge) (v : nat) : list nat :=
  flat_map (fun e => (if Nat.eqb (fst e) v then [snd e] else []) ++ (if Nat.eqb (snd e) v then [fst e] else [])) edges.

(** ** _build_hclt_from_tree: 35-81 *)
(** uniform_sum_weights: 53-59 *)
Definition uniform_w (ni : nat) (_ _ : nat) : R := 1 / INR ni.
Definition not_parent (parent : option nat) (ch : nat) : bool :=
  match parent with Some p => negb (Nat.eqb ch p) | None => true end.
Section Build.
  Variables (edges : list medge) (H : nat) (em : nat -> nat -> row -> lval) (init : hinit).
  (** the Sum over the states of the child: 69-70 *)
  Definition transition (ch : nat) (sub : hmod) : result hmod :=
    match init with Uniform => mk_hsum_w ch sub H H (uniform_w H) | Random rnd => mk_hsum_rand ch sub (rnd ch) end.
  (** build_subtree: 61-75; running out of fuel stands for unbounded recursion *)
  Fixpoint build_subtree (fuel node : nat) (parent : option nat) : result hmod :=
    match fuel with
    | O => Err
    | S k =>
        let emission := HLeaf node H (em node) in
        bind ((fix go (l : list nat) : result (list hmod) :=
                 match l with
                 | [] => Ok []
                 | ch :: rest =>
                     if not_parent parent ch
                     then bind (build_subtree k ch (Some node)) (fun sub => bind (transition ch sub) (fun tr =>
                          bind (go rest) (fun r => Ok (tr :: r))))
                     else go rest
                 end) (adjacent edges node)) (fun msgs =>
        match msgs with [] => Ok emission | _ => mk_mul (emission :: msgs) end)
    end.
  Definition build_hclt (f : nat) : result hmod :=
    if Nat.ltb H 1 then Err
    else if negb (Z.eqb (Z.of_nat (length edges)) (Z.of_nat f - 1)) then Err
    else if negb (edges_ok f edges) then Err
    else bind (build_subtree f 0 None) (fun sub =>
      match init with Uniform => mk_hsum_w 0 sub H 1 (uniform_w H) | Random rnd => mk_hsum_rand 0 sub (rnd 0%nat) end).
End Build.

(** ** The learners *)
Fixpoint mapR {A B} (g : A -> result B) (l : list A) : result (list B) :=
  match l with [] => Ok [] | a :: r => bind (g a) (fun b => bind (mapR g r) (fun bs => Ok (b :: bs))) end.
(** the mixture over the trees: 147-158 = 226-236; [rnd] for random mixture weights.
    Cat along channels wants equal scopes (cat.py 51). *)
Definition mix_hclts (init : hinit) (rnd : nat -> R) (ms : list hmod) : result hmod :=
  match ms with
  | [] => Err
  | [m] => Ok m
  | m0 :: _ =>
      if negb (forallb (fun m => set_eqb (hvars m0) (hvars m)) ms) then Err
      else
        let k := length ms in
        let w := match init with
                 | Uniform => fun _ => 1 / INR k
                 | Random _ => let raw i := rnd i + / 10 ^ 8 in fun i => raw i / bsum k raw
                 end in
        if negb (allb k (fun i => rlt 0 (w i))) then Err
        else if negb (close1 (bsum k w)) then Err
        else Ok (HMix (fun i => ln (w i)) ms)
  end.
(** tree number [t] has its own leaves and random numbers *)
Definition hclts_of (f H : nat) (em : nat -> nat -> nat -> row -> lval) (init : nat -> hinit) (trees : list (list medge)) : result (list hmod) :=
  mapR (fun t => build_hclt (nth t trees []) H (em t) (init t) f) (seq 0 (length trees)).
Definition complete_rows (f : nat) (data : list (nat -> option R)) : bool :=
  forallb (fun r => forallb (fun i => match r i with Some _ => true | None => false end) (seq 0 f)) data.
(** learn_hclt_binary: 84-158 *)
Definition learn_hclt_binary (f : nat) (data : list (nat -> option R)) (H num_trees : nat) (dropout : R) (weights : option (list (option R))) (pc : R)
  (masks : nat -> nat -> nat -> bool) (em : nat -> nat -> nat -> row -> lval) (init : nat -> hinit) (rnd : nat -> R) : result hmod :=
  if negb (complete_rows f data) then Err
  else bind (learn_chow_liu_trees_binary f data num_trees dropout weights pc masks) (fun trees =>
    bind (hclts_of f H em init trees) (mix_hclts (init 0%nat) rnd)).
(** learn_hclt_categorical: 161-236 *)
Definition learn_hclt_categorical (f : nat) (data : list (nat -> option Z)) (H : nat) (num_cats : option nat) (num_trees : nat) (dropout : R)
  (weights : option (list (option R))) (pc : R) (chunk : nat) (masks : nat -> nat -> nat -> bool) (em : nat -> nat -> nat -> row -> lval) (init : nat -> hinit) (rnd : nat -> R)
  : result hmod :=
  if negb (complete f data) then Err
  else
    let K := infer_cats f data num_cats in
    if Nat.eqb K 0 then Err
    else bind (learn_chow_liu_trees_categorical f data (Some K) num_trees dropout weights pc chunk masks) (fun trees =>
      bind (hclts_of f H em init trees) (mix_hclts (init 0%nat) rnd)).

(** Training writes new values into the leaves and the logits: [em v] are the leaf of
    variable [v], [tr v] the logits of the sum over the states of node [v] (a mixture is
    retrained component by component) *)
Fixpoint with_params (em : nat -> nat -> row -> lval) (tr : nat -> nat -> nat -> R) (m : hmod) : hmod :=
  match m with
  | HLeaf v ch _ => HLeaf v ch (em v)
  | HSum v oc _ c => HSum v oc (tr v) (with_params em tr c)
  | HMul ins => HMul (map (with_params em tr) ins)
  | HMix lg ins => HMix lg ins
  end.
