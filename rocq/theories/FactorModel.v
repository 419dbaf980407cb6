(** Model of spflow/modules/rat/factorize.py (Factorize). *)
From Coq Require Import List Arith Bool Reals.
From Verif Require Import Base ScopeModel CircuitModel SampleModel.
Import ListNotations.
Local Open Scope R_scope.

(** 117-126: the group sizes before shuffling *)
Definition base_sizes (nf G : nat) : list nat :=
  let card := (nf / G)%nat in
  let rest := (nf - card * G)%nat in
  map (fun i => if Nat.ltb i rest then S card else card) (seq 0 G).

(** 130-139 for one repetition: [idxs] is the permutation drawn, [sizes] the shuffled
    group sizes; the group of each output, [idxs[low:high]] *)
Fixpoint groups_from (nf G : nat) (idxs : list nat) (offset o : nat) (sizes : list nat) : list (list nat) :=
  match sizes with
  | [] => []
  | k :: rest =>
      let high := if Nat.eqb o (G - 1) then nf else (offset + k)%nat in
      firstn (high - offset) (skipn offset idxs) :: groups_from nf G idxs (offset + k) (S o) rest
  end.
Definition groups (nf G : nat) (sizes idxs : list nat) : list (list nat) := groups_from nf G idxs 0 0 sizes.
(** one entry of the 0/1 matrix *)
Definition entry (gs : list (list nat)) (i o : nat) : bool := memb i (nth o gs []).

(** The module: [fc_mat r i o] is [indices[i, o, r] = 1]; [fc_nf] is the number of
    variables of the input's scope (115), which is the number of rows of the matrix;
    [fc_in] and [fc_ch] are the number of features and channels of the input (72-73).
    107-141: [sizes] is the result of np.random.shuffle, [perms r] the r-th
    torch.randperm. *)
Record fact := mkFact { fc_nf : nat; fc_in : nat; fc_ch : nat; fc_depth : nat; fc_reps : nat;
                        fc_mat : nat -> nat -> nat -> bool }.
Definition mk_factorize (nf nin ch depth reps : nat) (sizes : list nat) (perms : nat -> list nat) : result fact :=
  let G := (2 ^ depth)%nat in
  if Nat.ltb nf G then Err
  else Ok (mkFact nf nin ch depth reps (fun r i o => entry (groups nf G sizes (perms r)) i o)).
(** 73 *)
Definition fc_out (m : fact) : nat := (2 ^ fc_depth m)%nat.

(** 65-69: argmax over the outputs of the 0/1 row: the first output with a one *)
Fixpoint first_true (n : nat) (p : nat -> bool) (k : nat) : nat :=
  match n with
  | O => 0%nat
  | S m => if p k then k else first_true m p (S k)
  end.
Definition owner (m : fact) (r i : nat) : nat := first_true (fc_out m) (fc_mat m r i) 0.

(** 143-166: einsum "bicr,ior->bocr" multiplies the input log-likelihood [ll i] by the
    0/1 entry and adds up over the inputs.  [None] is NaN, the value of -inf * 0 and of
    any sum with it.  The extents of "i" must agree, except that torch.einsum broadcasts
    an extent of one. *)
Definition emul (b : bool) (v : lval) : option lval :=
  if b then Some v else match v with Fin _ => Some (Fin 0) | NInf => None end.
Definition eadd (a b : option lval) : option lval :=
  match a, b with Some x, Some y => Some (ladd x y) | _, _ => None end.
Fixpoint esum (n : nat) (f : nat -> option lval) : option lval :=
  match n with O => Some (Fin 0) | S k => eadd (esum k f) (f k) end.
Definition fact_ll (m : fact) (ll : nat -> nat -> nat -> lval) (o c r : nat) : result (option lval) :=
  if Nat.eqb (fc_in m) (fc_nf m) then Ok (esum (fc_nf m) (fun i => emul (fc_mat m r i o) (ll i c r)))
  else if Nat.eqb (fc_in m) 1 then Ok (esum (fc_nf m) (fun i => emul (fc_mat m r i o) (ll 0%nat c r)))
  else Err.

(** 76-92: the Boolean mask has [fc_nf] entries and indexes the [fc_in] input features *)
Definition fact_scopes (m : fact) (f2s : list scope) (r o : nat) : result scope :=
  if negb (Nat.eqb (length f2s) (fc_nf m)) then Err
  else join_all (map (fun i => nth i f2s (mkScope [] [])) (filter (fun i => fc_mat m r i o) (seq 0 (fc_nf m)))).

(** 186-224: the context passed to the input: the channel and mask of each input feature
    are those of its owner (after broadcasting to all outputs, 195) *)
Definition fact_route (m : fact) (t : ctx) : result ctx :=
  if validate [1%nat; fc_out m] (fc_ch m) (fc_reps m) t then
    bind (broadcast (fc_out m) t) (fun t1 =>
      Ok (mkCtx (map (fun i => nth (owner m (c_rep t1) i) (c_ci t1) 0%nat) (seq 0 (fc_nf m)))
                (map (fun i => nth (owner m (c_rep t1) i) (c_mask t1) false) (seq 0 (fc_nf m)))
                (c_rep t1)))
  else Err.

(** 262-309, when every input feature is one variable: [kept] lists the input features
    that survive; [sizes]/[perms] are the fresh random draws of the new module.
    [None]: the whole scope is marginalised; [Some None]: the input is returned
    unfactorised (304-305). *)
Definition fact_marg (m : fact) (prune : bool) (kept : list nat) (sizes : list nat) (perms : nat -> list nat)
  : result (option (option fact)) :=
  match kept with
  | [] => Ok None
  | _ => if (prune && Nat.eqb (length kept) 1)%bool then Ok (Some None)
         else bind (mk_factorize (length kept) (length kept) (fc_ch m) (fc_depth m) (fc_reps m) sizes perms)
                   (fun f => Ok (Some (Some f)))
  end.
