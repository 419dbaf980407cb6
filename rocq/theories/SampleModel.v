(** Model of top-down sampling: Module.sample / mpe / sample_with_evidence and the
    _sample methods of leaves, Sum, Product and Cat, with the SamplingContext
    operations they use (spflow/utils/sampling_context.py).

    One data row at a time: all operations act row-wise, and an exception for one
    row is an exception for the batch.  Only integer routing (is_differentiable =
    False) is modelled.  Random primitives are kept symbolic in [prog]. *)
From Coq Require Import List Arith Bool.
From Verif Require Import Base ScopeModel CircuitModel.
Import ListNotations.
Local Open Scope R_scope.

(** A randomised computation.  [Choose n p k]: torch Categorical over [n] values
    with probabilities [p] (sampling_context.py 1173).  [Draw l f c r k]: one value
    of leaf [l]'s distribution at feature f, channel c, repetition r
    (leaf.py 724-730).  [Raise]: a Python exception. *)
Inductive prog (A : Type) : Type :=
| Ret (a : A)
| Raise
| Choose (n : nat) (p : nat -> R) (k : nat -> prog A)
| Draw (l : leaf) (f c r : nat) (k : R -> prog A).
Arguments Ret {A} _.
Arguments Raise {A}.
Arguments Choose {A} _ _ _.
Arguments Draw {A} _ _ _ _ _.

Fixpoint pbind {A B} (p : prog A) (q : A -> prog B) : prog B :=
  match p with
  | Ret a => q a
  | Raise => Raise
  | Choose n w k => Choose n w (fun i => pbind (k i) q)
  | Draw l f c r k => Draw l f c r (fun a => pbind (k a) q)
  end.

(** SamplingContext for one row: channel_index, mask, repetition_index
    (sampling_context.py 50-58) *)
Record ctx := mkCtx { c_ci : list nat; c_mask : list bool; c_rep : nat }.

(** sampling_context.py 256-279: SamplingContext(num_samples=...) *)
Definition init_ctx : ctx := mkCtx [0%nat] [true] 0.

(** active channel ids are below [n] (679-690, 791-802) *)
Definition active_below (n : nat) (t : ctx) : bool :=
  forallb (fun p : nat * bool => implb (snd p) (Nat.ltb (fst p) n)) (combine (c_ci t) (c_mask t)).

(** sampling_context.py 734-847 *)
Definition validate (widths : list nat) (nch nrep : nat) (t : ctx) : bool :=
  (Nat.eqb (length (c_ci t)) (length (c_mask t))
   && existsb (Nat.eqb (length (c_ci t))) widths
   && Nat.leb 1 nch && active_below nch t && Nat.leb 1 nrep && Nat.ltb (c_rep t) nrep)%bool.

(** sampling_context.py 493-532, allow_from_one=True *)
Definition broadcast (n : nat) (t : ctx) : result ctx :=
  if Nat.eqb (length (c_ci t)) n then Ok t
  else if Nat.eqb (length (c_ci t)) 1
       then Ok (mkCtx (repeat (hd 0%nat (c_ci t)) n) (repeat (hd false (c_mask t)) n) (c_rep t))
       else Err.

(** sampling_context.py 643-651: the slice of width [n] starting at [off] *)
Definition slice_range (off n : nat) (t : ctx) : ctx :=
  mkCtx (firstn n (skipn off (c_ci t))) (firstn n (skipn off (c_mask t))) (c_rep t).

(** sampling_context.py 692-707: the channels [off, off+n) belong to the child *)
Definition in_range (off n c : nat) : bool := (Nat.leb off c && Nat.ltb c (off + n))%bool.
Definition route (off n : nat) (t : ctx) : ctx :=
  mkCtx (map (fun c => if in_range off n c then (c - off)%nat else 0%nat) (c_ci t))
        (map (fun p : nat * bool => (in_range off n (fst p) && snd p)%bool) (combine (c_ci t) (c_mask t)))
        (c_rep t).

(** index of the first maximum (torch.argmax; sampling_context.py 1176).  All
    entries -inf: after log_softmax all entries are NaN and index 0 is returned. *)
Definition llt (a b : lval) : bool :=
  match a, b with
  | _, NInf => false
  | NInf, Fin _ => true
  | Fin x, Fin y => if Rlt_dec x y then true else false
  end.
Fixpoint argmax (n : nat) (g : nat -> lval) : nat :=
  match n with
  | O => O
  | S k => let b := argmax k g in if Nat.eqb k 0 then 0%nat else if llt (g b) (g k) then k else b
  end.

(** sampling_context.py 1170-1176 on unnormalised log-probabilities [g].  If every
    entry is -inf the normalised logits are NaN and Categorical's argument
    validation raises. *)
Definition sample_logits (mpe : bool) (n : nat) (g : nat -> lval) : prog nat :=
  if mpe then Ret (argmax n g)
  else if Rlt_dec 0 (bsum n (fun i => pr (g i)))
       then Choose n (fun i => pr (g i) / bsum n (fun j => pr (g j))) (fun i => Ret i)
       else Raise.

(** sum.py 311-374 for one feature [f] routed to output channel [c]: the logits at
    repetition [r] and channel [c] (319-338; gather raises when out of range), plus
    the cached log-likelihoods of the input if present (341-365).  [ev] = [Some e]
    when the cache holds the log-likelihoods of the evidence row [e]. *)
Definition sum_pick (mpe : bool) (ev : option row) (ch : module) (co rr : nat)
    (lg : nat -> nat -> nat -> nat -> R) (r f c : nat) : prog nat :=
  if (Nat.ltb c co && Nat.ltb r rr)%bool then
    match ev with
    | None => sample_logits mpe (channels (out_shape ch)) (fun i => Fin (lg f i c r))
    | Some e =>
        if Nat.ltb r (ll_reps ch)
        then sample_logits mpe (channels (out_shape ch)) (fun i => ladd (Fin (lg f i c r)) (loglik ch e f i r))
        else Raise
    end
  else Raise.

(** the new channel index of every feature (active or not), sum.py 368-376 *)
Fixpoint choose_channels (pick : nat -> nat -> prog nat) (f : nat) (ci : list nat) : prog (list nat) :=
  match ci with
  | [] => Ret []
  | c :: rest => pbind (pick f c) (fun n => pbind (choose_channels pick (S f) rest) (fun ns => Ret (n :: ns)))
  end.

(** leaf.py 1011-1037, data with [W] columns *)
Definition scope_cols (W : nat) (l : leaf) : result (list nat) :=
  let q := query (l_scope l) in
  if forallb (fun v => Nat.ltb v W) q then Ok q
  else if Nat.eqb W (length q) then Ok (seq 0 W) else Err.

(** leaf.py 1039-1078 *)
Definition slice_leaf (W : nat) (cols : list nat) (t : ctx) : result (list (nat * bool)) :=
  let n := length (c_mask t) in
  let cm := combine (c_ci t) (c_mask t) in
  if Nat.eqb n (length cols) then Ok cm
  else if Nat.eqb n 1 then Ok (repeat (hd (0%nat, false) cm) (length cols))
  else if Nat.eqb n W then Ok (map (fun v => nth v cm (0%nat, false)) cols)
  else Err.

(** one cell of a leaf: mode (683-684) or a draw (726-730); the draws of the other
    channels, repetitions and features (index_tensor, 700-761) are discarded by
    the code and not modelled *)
Definition leaf_value (mpe : bool) (l : leaf) (f c r : nat) : prog R :=
  if mpe then Ret (l_mode l f c r) else Draw l f c r (fun a => Ret a).

(** leaf.py 777-799: write the cells that are NaN and active *)
Fixpoint fill_cells (mpe : bool) (l : leaf) (r f : nat) (cols : list nat) (cm : list (nat * bool)) (x : row) : prog row :=
  match cols, cm with
  | v :: cols', (c, b) :: cm' =>
      match x v, b with
      | None, true => pbind (leaf_value mpe l f c r)
                        (fun a => fill_cells mpe l r (S f) cols' cm' (upd x v (Some a)))
      | _, _ => fill_cells mpe l r (S f) cols' cm' x
      end
  | _, _ => Ret x
  end.

Definition isnone {A} (o : option A) : bool := match o with None => true | Some _ => false end.

(** the row has a cell to sample (642-654) *)
Definition row_active (cols : list nat) (cm : list (nat * bool)) (x : row) : bool :=
  existsb (fun p : nat * (nat * bool) => (isnone (x (fst p)) && snd (snd p))%bool) (combine cols cm).

(** leaf.py 607-800 *)
Definition sample_leaf (mpe : bool) (W : nat) (l : leaf) (t : ctx) (x : row) : prog row :=
  if validate [1%nat; length (query (l_scope l)); W] (l_ch l) (l_rep l) t then
    match scope_cols W l with
    | Err => Raise
    | Ok cols =>
        match slice_leaf W cols t with
        | Err => Raise
        | Ok cm =>
            if row_active cols cm x
            then if forallb (fun p : nat * bool => Nat.ltb (fst p) (l_ch l)) cm
                 then fill_cells mpe l (c_rep t) 0 cols cm x
                 else Raise (* gather out of range, 759 *)
            else Ret x (* 657-658 *)
        end
    end
  else Raise.

(** context of the child at channel / feature offset [off] (cat.py 137-171) *)
Definition child_ctx (d2 : bool) (off : nat) (sh : shape) (t : ctx) : ctx :=
  if d2 then route off (channels sh) t else slice_range off (features sh) t.
Definition next_off (d2 : bool) (off : nat) (sh : shape) : nat :=
  (off + if d2 then channels sh else features sh)%nat.
(** slice_feature_ranges (643-651) / route_channel_offsets (671-690) accept *)
Definition child_ok (d2 : bool) (off : nat) (sh : shape) (t : ctx) : bool :=
  if d2 then Nat.leb 1 (channels sh) else Nat.leb (off + features sh) (length (c_ci t)).
Definition cat_ok (d2 : bool) (cs : list module) (t : ctx) : bool :=
  if d2 then active_below (nsum (map (fun c => channels (out_shape c)) cs)) t else true.

(** _sample: leaf.py 607, sum.py 282-385, cat.py 108-178, product.py 84-121 *)
Fixpoint sample_m (mpe : bool) (W : nat) (ev : option row) (m : module) (t : ctx) (x : row) {struct m} : prog row :=
  match m with
  | MLeaf l => sample_leaf mpe W l t x
  | MSum ch co rr lg =>
      let F := features (out_shape ch) in
      if validate [1%nat; F] co rr t then
        match broadcast F t with
        | Err => Raise
        | Ok t1 =>
            pbind (choose_channels (sum_pick mpe ev ch co rr lg (c_rep t1)) 0 (c_ci t1)) (fun ns =>
              sample_m mpe W ev ch (mkCtx ns (c_mask t1) (c_rep t1)) x)
        end
      else Raise
  | MCat d2 sc cs =>
      let sh := out_shape (MCat d2 sc cs) in
      if validate [1%nat; features sh] (channels sh) (repetitions sh) t then
        match broadcast (features sh) t with
        | Err => Raise
        | Ok t1 =>
            if cat_ok d2 cs t1 then
              (fix go (l : list module) (off : nat) (x : row) : prog row :=
                 match l with
                 | [] => Ret x
                 | c :: rest =>
                     if child_ok d2 off (out_shape c) t1
                     then pbind (sample_m mpe W ev c (child_ctx d2 off (out_shape c) t1) x)
                                (fun y => go rest (next_off d2 off (out_shape c)) y)
                     else Raise
                 end) cs 0%nat x
            else Raise
        end
      else Raise
  | MProduct ch =>
      let sh := out_shape ch in
      if validate [1%nat; 1%nat] (channels sh) (repetitions sh) t then
        match broadcast (features sh) t with
        | Err => Raise
        | Ok t1 => sample_m mpe W ev ch t1 x
        end
      else Raise
  end.

(** module.py 229-245: sample(data=x, is_mpe=mpe) with a fresh cache; [x] has [W]
    columns *)
Definition sample (mpe : bool) (W : nat) (m : module) (x : row) : prog row :=
  sample_m mpe W None m init_ctx x.

(** module.py 168-171: sample(num_samples=n): |scope| columns of NaN *)
Definition sample_new (mpe : bool) (m : module) : prog row :=
  sample mpe (length (query (scope_of m))) m (fun _ => None).

(** module.py 297-329: log_likelihood into the cache, then sample.  log_likelihood
    indexes [data[:, scope.query]] (leaf.py 432) and raises when the tensors do not
    broadcast. *)
Definition sample_with_evidence (mpe : bool) (W : nat) (m : module) (e : row) : prog row :=
  match ll_shape m with
  | Err => Raise
  | Ok _ => if forallb (fun v => Nat.ltb v W) (query (scope_of m))
            then sample_m mpe W (Some e) m init_ctx e else Raise
  end.
