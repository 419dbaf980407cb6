(** Structural marginalisation: marginalize(marg_rvs, prune) of leaves, Sum,
    Product and Cat. *)
From Coq Require Import List Arith Bool.
From Verif Require Import Base ScopeModel CircuitModel.
Import ListNotations.
Local Open Scope R_scope.

(** variables of [q] that are not marginalised *)
Definition kept (S : list nat) (q : list nat) : list nat := filter (fun v => negb (memb v S)) q.
Definition nonempty (q : list nat) : bool := match q with [] => false | _ => true end.

(** indices of the features whose scope does not become empty: the boolean mask
    of sum.py 485-494, and [idxs_marg] of leaf.py 1104 for singleton scopes *)
Definition kidx (S : list nat) (qs : list (list nat)) : list nat :=
  filter (fun f => nonempty (kept S (nth f qs []))) (seq 0 (length qs)).

(** leaf.py 1101-1119 and 239-248: same class with the surviving variables and
    the parameters of the surviving features (evidence of the scope is dropped:
    [Scope([...])], 1102) *)
Definition leaf_marg (S : list nat) (l : leaf) : leaf :=
  let idx := kidx S (map (fun v => [v]) (query (l_scope l))) in
  mkLeaf (mkScope (kept S (query (l_scope l))) []) (l_ch l) (l_rep l)
    (fun f => l_lp l (nth f idx 0%nat)) (fun f => l_mode l (nth f idx 0%nat)).

(** set(query) & set(marg_rvs), as a test for non-emptiness, and the test
    len(mutual) == len(query) *)
Definition touches (S : list nat) (s : scope) : bool := existsb (fun v => memb v S) (query s).
Definition covers (S : list nat) (s : scope) : bool := forallb (fun v => memb v S) (query s).

(** self.weights (sum.py 199-207) as a 4D tensor *)
Definition sum_weights (c : module) (co rr : nat) (lg : nat -> nat -> nat -> nat -> R) : wtensor :=
  let n := channels (out_shape c) in
  mkW (features (out_shape c)) n co rr (fun f i o r => softmax n (fun j => lg f j o r) i).

(** rows [idx] of the weights: module_weights[:, :, :, r][mask] (sum.py 496-503) *)
Definition mask_weights (idx : list nat) (w : wtensor) : wtensor :=
  mkW (length idx) (wI w) (wO w) (wR w) (fun f i o r => wv w (nth f idx 0%nat) i o r).

(** leaf.py 1080-1119, sum.py 436-521, cat.py 180-223, product.py 141-186.
    [Ok None]: fully marginalised.  sum.py 479-481 indexes
    [feature_to_scope[:, r]] for every repetition r of the weights: IndexError if
    the array has fewer columns; torch.stack of an empty list raises as well. *)
Fixpoint marg (S : list nat) (prune : bool) (m : module) : result (option module) :=
  match m with
  | MLeaf l =>
      if nonempty (kept S (query (l_scope l))) then Ok (Some (MLeaf (leaf_marg S l))) else Ok None
  | MSum c co rr lg =>
      if covers S (scope_of c) then Ok None
      else if touches S (scope_of c) then
        bind (marg S prune c) (fun oc =>
          match oc with
          | None => Ok None
          | Some c' =>
              if (Nat.ltb (fts_cols c) rr || Nat.eqb rr 0)%bool then Err
              else bind (mk_sum_w c' 1 1 (W4 (mask_weights (kidx S (fts c)) (sum_weights c co rr lg))))
                        (fun m' => Ok (Some m'))
          end)
      else bind (mk_sum_w c 1 1 (W4 (sum_weights c co rr lg))) (fun m' => Ok (Some m'))
  | MCat d2 sc cs =>
      if touches S sc then
        bind ((fix go (l : list module) : result (list module) :=
                 match l with
                 | [] => Ok []
                 | c :: rest =>
                     bind (marg S prune c) (fun oc =>
                     bind (go rest) (fun r => Ok (match oc with Some c' => c' :: r | None => r end)))
                 end) cs) (fun cs' =>
          match cs' with
          | [] => Ok None
          | [c] => if prune then Ok (Some c) else bind (mk_cat d2 [c]) (fun m' => Ok (Some m'))
          | _ => bind (mk_cat d2 cs') (fun m' => Ok (Some m'))
          end)
      else Ok (Some m)
  | MProduct c =>
      if covers S (scope_of c) then Ok None
      else
        bind (if touches S (scope_of c) then marg S prune c else Ok (Some c)) (fun oc =>
          match oc with
          | None => Ok None
          | Some c' => if (prune && Nat.eqb (features (out_shape c')) 1)%bool then Ok (Some c')
                       else bind (mk_product [c']) (fun m' => Ok (Some m'))
          end)
  end.

(** Every Sum has at most as many repetitions as its input's feature_to_scope
    array has columns (true when all modules use the same number of repetitions). *)
Fixpoint reps_ok (m : module) : Prop :=
  match m with
  | MLeaf _ => True
  | MSum c _ rr _ => reps_ok c /\ (1 <= rr <= fts_cols c)%nat
  | MCat _ _ cs => (fix go (l : list module) : Prop := match l with [] => True | c :: r => reps_ok c /\ go r end) cs
  | MProduct c => reps_ok c
  end.

(** No leaf has evidence variables in its scope. *)
Fixpoint no_evidence (m : module) : Prop :=
  match m with
  | MLeaf l => evidence (l_scope l) = []
  | MSum c _ _ _ => no_evidence c
  | MCat _ _ cs => (fix go (l : list module) : Prop := match l with [] => True | c :: r => no_evidence c /\ go r end) cs
  | MProduct c => no_evidence c
  end.
