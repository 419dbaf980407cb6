(** Model of the layers that combine several inputs:
    modules/products/{base_product,outer_product,elementwise_product}.py,
    modules/sums/{elementwise_sum,repetition_mixing_layer}.py,
    modules/einsum/{einsum_layer,linsum_layer}.py.

    A log-likelihood tensor of one data row is a shape and a function of feature,
    channel and repetition.  Only integer routing (is_differentiable = False) is
    modelled. *)
From Coq Require Import List Arith Bool.
From Verif Require Import Base ScopeModel CircuitModel SampleModel EmModel SplitModel.
Import ListNotations.
Local Open Scope R_scope.

Record tens := mkT { t_sh : shape; t_ll : nat -> nat -> nat -> lval }.
Definition t_ch (t : tens) := channels (t_sh t).
Definition t_ft (t : tens) := features (t_sh t).
Definition no_tens : tens := mkT (mkShape 0 0 0) (fun _ _ _ => NInf).

(** a feature split of a tensor (base_product.py 249-253): the list of its
    feature slices is split, channels and repetitions ride along *)
Definition slices (t : tens) : list (nat -> nat -> lval) := map (fun f => t_ll t f) (seq 0 (t_ft t)).
Definition of_slices (ch rp : nat) (l : list (nat -> nat -> lval)) : tens :=
  mkT (mkShape (length l) ch rp) (fun f => nth f l (fun _ _ => NInf)).

(** ** OuterProduct *)

(** itertools.product( range(n) for n in counts ): outer_product.py 71-73 *)
Fixpoint iproduct (counts : list nat) : list (list nat) :=
  match counts with
  | [] => [[]]
  | n :: rest => flat_map (fun i => map (cons i) (iproduct rest)) (seq 0 n)
  end.

(** outer_product.py 86-88 *)
Definition outer_channels (counts : list nat) : nat := length (iproduct counts).
(** unraveled_channel_indices[c]: outer_product.py 181-190; integer indexing raises
    when out of range *)
Definition outer_map (counts : list nat) (c : nat) : result (list nat) :=
  match nth_error (iproduct counts) c with Some t => Ok t | None => Err end.

(** outer_product.py 262-279 at one feature and repetition: [unsqueeze(3) +
    unsqueeze(2)] makes a (m1, m2) table and [view] flattens it row by row *)
Definition outer_step (acc : nat * (nat -> lval)) (nx : nat * (nat -> lval)) : nat * (nat -> lval) :=
  ((fst acc * fst nx)%nat, fun c => ladd (snd acc (c / fst nx)%nat) (snd nx (c mod fst nx)%nat)).
Definition outer_vals (l : list (nat * (nat -> lval))) : nat * (nat -> lval) :=
  match l with [] => (0%nat, fun _ => NInf) | a :: rest => fold_left outer_step rest a end.

(** outer_product.py 79-88 and the failures of [view] at 266-278: the features of
    the sum of the inputs must be those of the first input *)
Definition outer_shape (ts : list tens) : result shape :=
  match ts with
  | [] => Err
  | t0 :: rest =>
      if forallb (fun t => (Nat.eqb (t_ft t) (t_ft t0) || Nat.eqb (t_ft t) 1) && Nat.eqb (repetitions (t_sh t)) (repetitions (t_sh t0)))%bool rest
      then Ok (mkShape (t_ft t0) (outer_channels (map t_ch ts)) (repetitions (t_sh t0)))
      else Err
  end.
Definition outer_ll (ts : list tens) (f c r : nat) : lval :=
  snd (outer_vals (map (fun t => (t_ch t, fun k => t_ll t (bidx (t_ft t) f) k r)) ts)) c.

(** outer_product.py 125-145: what check_shapes accepts, on (features, channels) *)
Definition all_same (l : list nat) : bool := forallb (Nat.eqb (hd 0%nat l)) l.
Definition ones_but_one (l : list nat) : bool := Nat.eqb (count_occ Nat.eq_dec l 1%nat) (length l - 1).
Definition outer_check (shs : list (nat * nat)) : bool :=
  (all_same (map fst shs) || all_same (map snd shs) || ones_but_one (map fst shs) || ones_but_one (map snd shs))%bool.

(** outer_product.py 147-167 (a list of inputs, one repetition) *)
Fixpoint cartesian {A} (ls : list (list A)) : list (list A) :=
  match ls with
  | [] => [[]]
  | l :: rest => flat_map (fun a => map (cons a) (cartesian rest)) l
  end.
Definition outer_fts (ins : list (list (list nat))) : list (list nat) := map pjoin (cartesian ins).

(** ** Routing into a split input *)
Inductive split_kind := Consecutive | Interleaved | ByIndex.

(** rearrange "b f i -> b (i f)" resp. "b f i -> b (f i)" of the [w] lists [l f]
    of length [n]: outer_product.py 184-189, 226-233; elementwise_product.py
    186-193, 226-233 *)
Definition unsplit {A} (k : split_kind) (w n : nat) (l : nat -> nat -> A) : result (list A) :=
  match k with
  | Consecutive => Ok (flat_map (fun i => map (fun f => l f i) (seq 0 w)) (seq 0 n))
  | Interleaved => Ok (flat_map (fun f => map (fun i => l f i) (seq 0 n)) (seq 0 w))
  | ByIndex => Err (* NotImplementedError *)
  end.
(** the input feature behind feature [f] of part [i] *)
Definition in_feature (k : split_kind) (w n f i : nat) : nat :=
  match k with Consecutive => (i * w + f)%nat | _ => (f * n + i)%nat end.

(** ** ElementwiseProduct *)

(** elementwise_product.py 72, 92: channels of the output *)
Definition ew_channels (ts : list tens) : nat := list_max (map t_ch ts).
Definition ew_accepts (ts : list tens) : bool :=
  forallb (fun t => Nat.eqb (t_ch t) 1 || Nat.eqb (t_ch t) (ew_channels ts))%bool ts.
(** elementwise_product.py 258-271: single channels are repeated; torch.stack
    needs equal shapes *)
Definition ew_shape (ts : list tens) : result shape :=
  match ts with
  | [] => Err
  | t0 :: rest =>
      if (ew_accepts ts && forallb (fun t => Nat.eqb (t_ft t) (t_ft t0) && Nat.eqb (repetitions (t_sh t)) (repetitions (t_sh t0)))%bool rest)%bool
      then Ok (mkShape (t_ft t0) (ew_channels ts) (repetitions (t_sh t0))) else Err
  end.
Definition ew_ll (ts : list tens) (f c r : nat) : lval :=
  ladds (length ts) (fun i => let t := nth i ts no_tens in t_ll t f (bidx (t_ch t) c) r).
(** elementwise_product.py 195-201, base_product.py 180-182 *)
Definition ew_map (ts : list tens) (c : nat) : list nat := map (fun t => if Nat.eqb (t_ch t) 1 then 0%nat else c) ts.
(** elementwise_product.py 120-140: what check_shapes accepts *)
Definition ew_check (shs : list (nat * nat)) : bool :=
  let non1 l := filter (fun n => negb (Nat.eqb n 1)) l in
  let one_value l := (negb (Nat.eqb (length l) 0) && all_same l)%bool in
  (forallb (fun s => Nat.eqb (fst s) (fst (hd (0%nat,0%nat) shs)) && Nat.eqb (snd s) (snd (hd (0%nat,0%nat) shs)))%bool shs
   || one_value (non1 (map fst shs)) || one_value (non1 (map snd shs))
   || (Nat.leb (length (non1 (map fst shs))) 1 && Nat.leb (length (non1 (map snd shs))) 1))%bool.

(** ** ElementwiseSum *)

(** logits [lg f ci co i r]; [n] inputs; [S] = _num_sums (elementwise_sum.py 141-148) *)
Definition elogits := nat -> nat -> nat -> nat -> nat -> R.
(** elementwise_sum.py 150-155, 351-353: flat channel -> (input channel, sum) *)
Definition esum_ci (S c : nat) : nat := (c / S)%nat.
Definition esum_co (S c : nat) : nat := (c mod S)%nat.
(** elementwise_sum.py 474-507 *)
Definition esum_ll (S : nat) (lg : elogits) (ts : list tens) (f c r : nat) : lval :=
  let n := length ts in
  lse n (fun i => let t := nth i ts no_tens in
    ladd (t_ll t f (bidx (t_ch t) (esum_ci S c)) r)
         (Fin (log_softmax n (fun j => lg f (esum_ci S c) (esum_co S c) j r) i))).
(** elementwise_sum.py 315-441 for one feature routed to channel [c]: which input
    is selected.  [ev]: the inputs' cached log-likelihoods, if all are cached *)
Definition esum_pick (mpe : bool) (S : nat) (lg : elogits) (n : nat) (ev : option (list tens)) (f c r : nat) : prog nat :=
  sample_logits mpe n (fun i =>
    match ev with
    | None => Fin (lg f (esum_ci S c) (esum_co S c) i r)
    | Some ts => let t := nth i ts no_tens in
        ladd (Fin (lg f (esum_ci S c) (esum_co S c) i r)) (t_ll t f (bidx (t_ch t) (esum_ci S c)) r)
    end).
(** elementwise_sum.py 443-455: the channel handed to the selected input; the
    input's validate_sampling_context rejects channels it does not have
    (sampling_context.py 791-802) *)
Definition esum_route (S : nat) (ts : list tens) (i c : nat) : result nat :=
  if Nat.ltb (esum_ci S c) (t_ch (nth i ts no_tens)) then Ok (esum_ci S c) else Err.
(** elementwise_sum.py 103-113 *)
Definition esum_channels (S : nat) (ts : list tens) : nat := (S * list_max (map t_ch ts))%nat.

(** ** EinsumLayer *)

(** logits [lg f o r i j]; weights are softmax over the flattened pairs
    (einsum_layer.py 239-243, 309-312): flatten(i,j) = i*J + j *)
Definition pair_logits := nat -> nat -> nat -> nat -> nat -> R.
Definition unflat (J k : nat) : nat * nat := ((k / J)%nat, (k mod J)%nat).
Definition flat_logits (J : nat) (lg : pair_logits) (f o r k : nat) : R := lg f o r (k / J)%nat (k mod J)%nat.
Definition pair_weight (I J : nat) (lg : pair_logits) (f o r i j : nat) : R :=
  softmax (I * J) (flat_logits J lg f o r) (i * J + j).

(** amax over the channels (366, 369) *)
Definition lmax2 (a b : lval) : lval := if llt a b then b else a.
Fixpoint lmax (n : nat) (g : nat -> lval) : lval :=
  match n with O => NInf | S k => lmax2 (lmax k g) (g k) end.
(** exp(l - max): -inf - -inf is NaN *)
Definition shifted (m l : lval) : option R :=
  match m, l with
  | NInf, _ => None
  | Fin a, NInf => Some 0
  | Fin a, Fin b => Some (exp (b - a))
  end.
(** the three contraction schedules of _contract_probabilities (355-365) *)
Inductive schedule := Dense | LeftFirst | RightFirst.
Definition contract (s : schedule) (I J : nat) (p q : nat -> R) (w : nat -> nat -> R) : R :=
  match s with
  | Dense => bsum I (fun i => bsum J (fun j => p i * q j * w i j))
  | LeftFirst => bsum J (fun j => q j * bsum I (fun i => p i * w i j))
  | RightFirst => bsum I (fun i => p i * bsum J (fun j => q j * w i j))
  end.
Fixpoint all_some (n : nat) (g : nat -> option R) : bool :=
  match n with O => true | S k => (all_some k g && match g k with Some _ => true | None => false end)%bool end.
Definition val0 (o : option R) : R := match o with Some a => a | None => 0 end.
(** log(prob) + left_max + right_max: torch.log(0) = -inf (380) *)
Definition log_add2 (p : R) (a b : lval) : fl := of_lval (ladd (ladd (lfrom p) a) b).
(** einsum_layer.py 366-380 *)
Definition einsum_ll (s : schedule) (I J : nat) (lg : pair_logits) (l r_ : nat -> nat -> nat -> lval) (f o r : nat) : fl :=
  let lm := lmax I (fun i => l f i r) in
  let rm := lmax J (fun j => r_ f j r) in
  let p i := shifted lm (l f i r) in
  let q j := shifted rm (r_ f j r) in
  if (all_some I p && all_some J q)%bool
  then log_add2 (contract s I J (fun i => val0 (p i)) (fun j => val0 (q j)) (pair_weight I J lg f o r)) lm rm
  else FNan.
(** einsum_layer.py 481-555: the pair of channels one feature is routed to *)
Definition einsum_pick (mpe : bool) (I J : nat) (lg : pair_logits)
    (ev : option ((nat -> nat -> nat -> lval) * (nat -> nat -> nat -> lval))) (f o r : nat) : prog (nat * nat) :=
  pbind (sample_logits mpe (I * J) (fun k =>
           match ev with
           | None => Fin (flat_logits J lg f o r k)
           | Some (a, b) => ladd (Fin (flat_logits J lg f o r k)) (ladd (a f (k / J)%nat r) (b f (k mod J)%nat r))
           end))
        (fun k => Ret (unflat J k)).
(** einsum_layer.py 566-572, linsum_layer.py 434-440 for a single (split) input:
    channels by the split's own merge, mask by "b f -> b (f two)" *)
Definition half_channels (k : split_kind) (left right : list nat) : result (list nat) :=
  match k with
  | Consecutive => Ok (merge_consecutive [left; right])
  | _ => merge_interleaved [left; right]
  end.
Definition half_mask (mask : list bool) : list bool := flat_map (fun b => [b; b]) mask.
(** einsum_layer.py 136-149, 291-296, 378-380 for a single input split into
    [parts] feature slices: the first two parts are used, and torch.einsum
    broadcasts a part of width 1 against the [D] output features *)
Definition einsum_single_ll (s : schedule) (I : nat) (lg : pair_logits) (D : nat)
    (parts : list (list (nat -> nat -> lval))) (f o r : nat) : result fl :=
  match parts with
  | a :: b :: _ =>
      let ok (p : list (nat -> nat -> lval)) := (Nat.eqb (length p) D || Nat.eqb (length p) 1)%bool in
      if (ok a && ok b)%bool
      then Ok (einsum_ll s I I lg (fun f => nth (bidx (length a) f) a (fun _ _ => NInf))
                                  (fun f => nth (bidx (length b) f) b (fun _ _ => NInf)) f o r)
      else Err
  | _ => Err
  end.
(** einsum_layer.py 225-236, linsum_layer.py 192-203 *)
Definition einsum_fts (scopes : list (list nat)) (f : nat) : list nat :=
  pjoin [nth (2 * f) scopes []; nth (2 * f + 1) scopes []].

(** ** LinsumLayer: logits [lg f o r c] *)
Definition linsum_ll (C : nat) (lg : nat -> nat -> nat -> nat -> R) (l r_ : nat -> nat -> nat -> lval) (f o r : nat) : lval :=
  lse C (fun c => ladd (ladd (l f c r) (r_ f c r)) (Fin (log_softmax C (lg f o r) c))).
Definition linsum_pick (mpe : bool) (C : nat) (lg : nat -> nat -> nat -> nat -> R)
    (ev : option ((nat -> nat -> nat -> lval) * (nat -> nat -> nat -> lval))) (f o r : nat) : prog (nat * nat) :=
  pbind (sample_logits mpe C (fun c =>
           match ev with
           | None => Fin (lg f o r c)
           | Some (a, b) => ladd (Fin (lg f o r c)) (ladd (a f c r) (b f c r))
           end))
        (fun c => Ret (c, c)).

(** ** RepetitionMixingLayer: logits [lg f c r] *)
(** repetition_mixing_layer.py 184-198: the repetitions of each channel are mixed,
    one repetition remains *)
Definition repmix_ll (Rr : nat) (lg : nat -> nat -> nat -> R) (l : nat -> nat -> nat -> lval) (f c : nat) : lval :=
  lse Rr (fun r => ladd (l f c r) (Fin (log_softmax Rr (lg f c) r))).
(** 112-115 of sum.py: declared repetitions; 198: actual repetitions *)
Definition repmix_declared (co nr : nat) (t : tens) : shape := mkShape (t_ft t) co nr.
Definition repmix_actual (co : nat) (t : tens) : shape := mkShape (t_ft t) co 1.
(** sum.py 214-221 with sum_dim: dimension 1 (channels) while the constructor runs
    (sum.py 108), dimension 2 (repetitions) afterwards (repetition_mixing_layer.py
    42).  Values [w f c r]. *)
Definition repmix_set (in_constructor : bool) (F C Rr : nat) (w : nat -> nat -> nat -> R) : result (nat -> nat -> nat -> R) :=
  if negb (allb F (fun f => allb C (fun c => allb Rr (fun r => rlt 0 (w f c r))))) then Err
  else if negb (if in_constructor
                then allb F (fun f => allb Rr (fun r => close1 (bsum C (fun c => w f c r))))
                else allb F (fun f => allb C (fun c => close1 (bsum Rr (fun r => w f c r))))) then Err
  else Ok (fun f c r => ln (w f c r)).
(** repetition_mixing_layer.py 124-155: feature width 1; the logits (posterior if
    log-likelihoods are cached, log_softmax over repetitions) are summed over the
    channels *)
Definition repmix_logit (Rr : nat) (lg : nat -> nat -> nat -> R) (ev : option (nat -> nat -> nat -> lval)) (c r : nat) : lval :=
  match ev with
  | None => Fin (lg 0%nat c r)
  | Some l => lsub (ladd (Fin (lg 0%nat c r)) (l 0%nat c r))
                   (lse Rr (fun q => ladd (Fin (lg 0%nat c q)) (l 0%nat c q)))
  end.
Definition repmix_pick (mpe : bool) (C Rr : nat) (lg : nat -> nat -> nat -> R) (ev : option (nat -> nat -> nat -> lval)) : prog nat :=
  sample_logits mpe Rr (fun r => ladds C (fun c => repmix_logit Rr lg ev c r)).

(** ** marginalize of EinsumLayer with two inputs (einsum_layer.py 655-683; the
    same in linsum_layer.py 515-543) *)
(** einsum_layer.py 193-196: fresh weights from torch.rand values [rnd] *)
Definition fresh_pair_weight (I J : nat) (rnd : nat -> nat -> nat -> nat -> nat -> R) (f o r i j : nat) : R :=
  (rnd f o r i j + / 10 ^ 8) / bsum I (fun a => bsum J (fun b => rnd f o r a b + / 10 ^ 8)).
(** both inputs survive: a new layer is built without passing the weights (679-683) *)
Definition marg_pair_logits (I J : nat) (rnd : nat -> nat -> nat -> nat -> nat -> R) : pair_logits :=
  fun f o r i j => ln (fresh_pair_weight I J rnd f o r i j).
(** number of output channels after marginalising: one input gone, the other one is
    returned as it is (671-676) *)
Definition marg_pair_channels (left_gone right_gone : bool) (O I J : nat) : option nat :=
  match left_gone, right_gone with
  | true, true => None
  | true, false => Some J
  | false, true => Some I
  | false, false => Some O
  end.
