(** What RatSPN and Einet are supposed to compute: probabilities, written without the
    layers' log-space arithmetic, shapes or splits. *)
From Coq Require Import List Arith Bool Reals.
From Coq Require Import Permutation.
From Verif Require Import Base ScopeModel CircuitModel CircuitSpec LayerModel FactorModel StackModel.
Import ListNotations.
Local Open Scope R_scope.

(** The region graph of a RatSPN.  [base f c r] is the probability of channel [c] of the
    [f]-th group of variables in repetition [r]; level [l + 1] has half as many regions
    as level [l], region [f] joining the two regions [child k w f 0], [child k w f 1] of the
    level below, [w] being the number of regions of its own level. *)
Definition child (k : split_kind) (w f i : nat) : nat :=
  match k with Consecutive => (i * w + f)%nat | _ => (2 * f + i)%nat end.

Section Rat.
Variables (depth : nat) (outer : bool) (k : split_kind).
Variable ch : nat -> nat.                                      (* channels of a level *)
Variable lg : nat -> nat -> nat -> nat -> nat -> R.            (* logits: level, region, product, channel, repetition *)
Variable base : nat -> nat -> nat -> R.
(** outer products: all pairs of channels, the first varying slowest; elementwise
    products: equal channels *)
Fixpoint region (l f o r : nat) : R :=
  match l with
  | O => base f o r
  | S l' =>
      let C := ch l' in
      let N := if outer then (C * C)%nat else C in
      let w := (2 ^ (depth - l))%nat in
      bsum N (fun i => softmax N (fun j => lg l' f j o r) i *
        (region l' (child k w f 0) (if outer then (i / C)%nat else i) r *
         region l' (child k w f 1) (if outer then (i mod C)%nat else i) r))
  end.
End Rat.
(** repetitions are mixed per root channel, the root channels with the root weights *)
Definition mixed (root reps : nat) (mix : nat -> nat -> R) (top : nat -> R) (v : nat -> nat -> R) : R :=
  bsum root (fun k => softmax root top k * bsum reps (fun r => softmax reps (mix k) r * v k r)).

(** The product, over the variables [i] that [grp r f] selects, of the leaf probabilities *)
Definition group_prob (nf : nat) (grp : nat -> nat -> nat -> bool) (p : nat -> nat -> nat -> R) (f c r : nat) : R :=
  bprod nf (fun i => if grp r i f then p i c r else 1).

(** The layers of an Einet: region [f] joins the regions [2 f] and [2 f + 1] below it. *)
Section Einet.
Variable lin : bool.                                            (* linsum / einsum *)
Variable ch : nat -> nat.
Variable llg : nat -> nat -> nat -> nat -> nat -> R.            (* linsum logits: level, region, channel, repetition, index *)
Variable elg : nat -> nat -> nat -> nat -> nat -> nat -> R.     (* einsum logits: ..., left, right *)
Variable base : nat -> nat -> nat -> R.
Fixpoint einode (l f o r : nat) : R :=
  match l with
  | O => base f o r
  | S l' =>
      let C := ch l' in
      if lin
      then bsum C (fun c => softmax C (llg l' f o r) c * (einode l' (2 * f) c r * einode l' (2 * f + 1) c r))
      else bsum C (fun i => bsum C (fun j =>
             exp (elg l' f o r i j) / bsum C (fun a => bsum C (fun b => exp (elg l' f o r a b)))
             * (einode l' (2 * f) i r * einode l' (2 * f + 1) j r)))
  end.
End Einet.

(** ** The density of a RatSPN.
    [C0] leaf channels, [root] root channels, [rg] channels of the regions in between *)
Definition rat_channels (depth C0 root rg l : nat) : nat :=
  if Nat.eqb l 0 then C0 else if Nat.eqb l depth then root else rg.

(** admissible leaves: the leaf modules combine to [m], whose features are one variable
    each, with [reps] repetitions or one *)
Record leaves_ok (leaves : list module) (m : module) (s : shape) (reps : nat) : Prop := {
  lo_built : Forall built leaves;
  lo_in : leaf_input leaves = Ok m;
  lo_aligned : aligned m;
  lo_shape : ll_shape m = Ok s;
  lo_one : features (out_shape m) = length (query (scope_of m));
  lo_reps : repetitions s = reps \/ repetitions s = 1%nat }.
(** the random draws are a shuffle of the group sizes and permutations of the features *)
Definition draw_ok (nf depth : nat) (d : draw) : Prop :=
  Permutation (d_sizes d) (base_sizes nf (2 ^ depth)) /\ forall r, Permutation (d_perms d r) (seq 0 nf).

(** every variable of every repetition is in exactly one of the [G] groups *)
Definition partitions (nf reps G : nat) (grp : nat -> nat -> nat -> bool) : Prop :=
  forall r i, (r < reps)%nat -> (i < nf)%nat -> exists g, (g < G)%nat /\ grp r i g = true /\ forall h, grp r i h = true -> h = g.
(** the documented requirements on the arguments of RatSPN *)
Definition rat_fine (c : rat_cfg) (m : module) : Prop :=
  (1 <= ra_root c)%nat /\ (1 <= ra_region c)%nat /\ (2 <= ra_splits c)%nat /\ (1 <= ra_depth c)%nat /\
  (2 ^ ra_depth c <= length (query (scope_of m)))%nat.
(** an elementwise product is never put on three channels and four or more regions *)
Definition rat_no3 (c : rat_cfg) (m : module) : Prop :=
  ra_outer c = true \/ (~ (channels (out_shape m) = 3%nat /\ (2 <= ra_depth c)%nat) /\ ~ (ra_region c = 3%nat /\ (3 <= ra_depth c)%nat)).
(** the mixture a RatSPN with the groups [grp] describes *)
Definition rat_density (c : rat_cfg) (p : rat_par) (k : split_kind) (m : module) (s : shape) (grp : nat -> nat -> nat -> bool) (x : row) : R :=
  let nf := length (query (scope_of m)) in
  mixed (ra_root c) (ra_reps c) (rp_mix p 0%nat) (fun j => rp_root p 0%nat j 0%nat 0%nat)
    (fun q r => region (ra_depth c) (ra_outer c) k (rat_channels (ra_depth c) (channels (out_shape m)) (ra_root c) (ra_region c)) (rp_sum p)
                  (group_prob nf grp (fun i ch r => pr (loglik m x i ch (bidx (repetitions s) r)))) (ra_depth c) 0 q r).
