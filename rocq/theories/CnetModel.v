(** Model of learn_cnet (spflow/learn/cnet.py) and of the log-likelihood of the circuits
    it builds.  What a leaf computes after estimation is an oracle; whether it has been
    estimated at all is modelled.  Scopes without evidence; floats are reals. *)
From Coq Require Import List Arith ZArith Bool Reals.
From Verif Require Import Base ScopeModel CircuitModel LearnModel SignedModel.
Import ListNotations.
Local Open Scope R_scope.

Definition reqb (a b : R) : bool := if Req_EM_T a b then true else false.
Definition rleb (a b : R) : bool := if Rle_dec a b then true else false.
(** Tensor.round, ties upwards instead of to even *)
Definition round (a : R) : R := IZR (up (a - 1 / 2)).
(** torch.allclose(col, col.round()) on one entry *)
Definition near_int (a : R) : bool := rleb (Rabs (a - round a)) (/ 10 ^ 8 + / 10 ^ 5 * Rabs (round a)).

(** 32-47 ([D] columns); min() and max() of an empty column raise *)
Definition validate (D : nat) (cards : nat -> nat) (q : list nat) (data : dataset) : bool :=
  forallb (fun x => forallb (fun v => match x v with Some _ => true | None => false end) (seq 0 D)) data &&
  forallb (fun v => negb (Nat.eqb (length data) 0) &&
    forallb (fun x => match x v with Some a => near_int a && rleb 0 a && negb (rleb (INR (cards v)) a) | None => false end) data) q.

(** 50-59 *)
Definition count_trunc (data : dataset) (v k : nat) : nat :=
  length (filter (fun x => match x v with Some a => Nat.eqb (Z.to_nat (Int_part a)) k | None => false end) data).
Definition entropy (data : dataset) (v K : nat) : R :=
  if Nat.eqb (length data) 0 then 0 else
  let tot := Rmax (bsum K (fun k => INR (count_trunc data v k))) (/ 10 ^ 12) in
  let p k := INR (count_trunc data v k) / tot in
  - bsum K (fun k => p k * ln (Rmax (p k) (/ 10 ^ 12))).
(** 156-158: list.sort is stable *)
Fixpoint einsert (e : nat -> R) (v : nat) (l : list nat) : list nat :=
  match l with [] => [v] | u :: r => if rleb (e u) (e v) then v :: l else u :: einsert e v r end.
Definition naive_order (cards : nat -> nat) (data : dataset) (q : list nat) : list nat :=
  fold_right (einsert (fun v => entropy data v (cards v))) [] q.

(** ** The circuits built *)
Inductive cnet :=
(** CLTree over [q]; [fit]: maximum_likelihood_estimation was called *)
| CTree (q : list nat) (fit : bool) (p : nat -> row -> R)
(** Categorical over [v] *)
| CCateg (v : nat) (p : nat -> row -> R)
(** Product([Categorical with all mass on [k], sub]) *)
| CBranch (v k : nat) (sub : cnet)
(** Sum over Cat(branches, dim=2); every channel of branch b has weight [nth b w] *)
| CMix (w : list R) (bs : list cnet).

Fixpoint cscope (m : cnet) : list nat :=
  match m with
  | CTree q _ _ => q
  | CCateg v _ => [v]
  | CBranch v _ sub => v :: cscope sub
  | CMix _ bs => match bs with b :: _ => cscope b | [] => [] end
  end.
(** log_likelihood evaluates every leaf; a CLTree without a structure raises
    (cltree.py 326-329) *)
Fixpoint cready (m : cnet) : bool :=
  match m with
  | CTree _ fit _ => fit
  | CCateg _ _ => true
  | CBranch _ _ sub => cready sub
  | CMix _ bs => (fix go (l : list cnet) : bool := match l with [] => true | b :: r => cready b && go r end) bs
  end.
(** exp of the log-likelihood of channel [c], summed over the features; the one-hot
    Categorical gives 0 or -inf, NaN cells are marginalised *)
Fixpoint cprob (oc : nat) (m : cnet) (c : nat) (x : row) : R :=
  match m with
  | CTree _ _ p => p c x
  | CCateg _ p => p c x
  | CBranch v k sub => match x v with None => 1 | Some a => if reqb a (INR k) then 1 else 0 end * cprob oc sub c x
  | CMix w bs => (fix go (l : list cnet) (ws : list R) : R :=
      match l, ws with b :: r, a :: ws' => bsum oc (fun c' => a * cprob oc b c' x) + go r ws' | _, _ => 0 end) bs w
  end.
Definition clog_likelihood (oc : nat) (m : cnet) (c : nat) (x : row) : result R := if cready m then Ok (cprob oc m c x) else Err.

Section Cnet.
(** [lf data q]: the distribution of a leaf over [q] after (or, for too few rows,
    without) estimation on [data]; the constructor or the estimation may raise.
    Simplification: unestimated (randomly initialised) leaves of equal calls coincide *)
Variables (lf : dataset -> list nat -> result (nat -> row -> R)) (cards : nat -> nat) (oc minf mini : nat) (ord : list nat).

(** 286-315 *)
Definition create_leaf (data : dataset) (q : list nat) : result cnet :=
  bind (lf data q) (fun p =>
    match q with
    | [] => Err
    | [v] => Ok (CCateg v p)
    | _ => Ok (CTree q (Nat.leb 2 (length data)) p)
    end).

(** 210 *)
Definition slice (data : dataset) (v k : nat) : dataset :=
  filter (fun x => match x v with Some a => reqb a (INR k) | None => false end) data.

(** 239-244 *)
Definition branch_weights (counts : list nat) : list R :=
  let tot := list_sum counts in
  if Nat.eqb tot 0 then map (fun _ => 1 / INR (length counts)) counts else map (fun n => INR n / INR tot) counts.
(** 257-277: per channel, normalised over all channels *)
Definition channel_weights (w : list R) : list R :=
  let flat := map (fun a => a / INR oc) w in
  let tot := Rmax (INR oc * lsumR flat) (/ 10 ^ 12) in map (fun a => a / tot) flat.
(** 238-281; the weights setter rejects weights that are not positive (sum.py 218) *)
Definition combine_branches (counts : list nat) (bs : list cnet) : result cnet :=
  let w := branch_weights counts in
  match filter (fun p => negb (rleb (snd p) 0)) (combine bs w) with
  | [(b, _)] => Ok b
  | _ => if (forallb (fun a => negb (rleb a 0)) (channel_weights w) && negb (Nat.eqb (length bs) 0))%bool
         then Ok (CMix (channel_weights w) bs) else Err
  end.

(** 164-281; [fuel] bounds the recursion (the scope shrinks in every call) *)
Fixpoint build (fuel : nat) (data : dataset) (q : list nat) : result cnet :=
  match fuel with
  | O => Err
  | S n =>
      if (Nat.leb (length q) minf || Nat.ltb (length data) mini)%bool then create_leaf data q
      else
        match find (fun v => memb v q) ord with
        | None => create_leaf data q
        | Some cv =>
            let rem := filter (fun v => negb (Nat.eqb v cv)) q in
            match rem with
            | [] => create_leaf data q
            | _ =>
                bind (mapR (fun k =>
                        let s := slice data cv k in
                        bind (if Nat.eqb (length s) 0 then create_leaf [] rem else build n s rem)
                             (fun sub => Ok (CBranch cv k sub))) (seq 0 (cards cv))) (fun bs =>
                combine_branches (map (fun k => length (slice data cv k)) (seq 0 (cards cv))) bs)
            end
        end
  end.
End Cnet.

(** 83-283; [perm]: the shuffled variables for cond="random", None for "naive_mle" *)
Definition learn_cnet (lf : dataset -> list nat -> result (nat -> row -> R)) (D : nat) (cards : nat -> nat) (oc minf mini : nat)
  (perm : option (list nat)) (data : dataset) (q : list nat) : result cnet :=
  if validate D cards q data
  then build lf cards oc minf mini (match perm with Some p => p | None => naive_order cards data q end) (S (length q)) data q
  else Err.
