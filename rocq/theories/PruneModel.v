(** Model of prune_sums (spflow/learn/learn_spn.py 22-80).  The in-place rewriting of the
    circuit becomes a function from circuits to circuits; [Err] is an exception. *)
From Coq Require Import List Arith Bool Reals.
From Verif Require Import Base ScopeModel CircuitModel.
Import ListNotations.
Local Open Scope R_scope.

Definition is_sumb (m : module) : bool := match m with MSum _ _ _ _ => true | _ => false end.
Definition is_catb (m : module) : bool := match m with MCat _ _ _ => true | _ => false end.
Definition cat_inputs (m : module) : list module := match m with MCat _ _ cs => cs | _ => [] end.
Definition sum_input (m : module) : module := match m with MSum c _ _ _ => c | _ => m end.

(** sum.py 199-207: the normalised weights, as a tensor *)
Definition weights_of (m : module) : wtensor :=
  match m with
  | MSum ch co rr lg =>
      let n := channels (out_shape ch) in
      mkW (features (out_shape ch)) n co rr (fun f i o r => softmax n (fun j => lg f j o r) i)
  | _ => mkW 0 0 0 0 (fun _ _ _ _ => 0)
  end.

(** 53: [new_weights[i] * current_weights[:, i, :].unsqueeze(1)], with torch's
    broadcasting; indexing past the end raises *)
Definition scaled (w cur : wtensor) (i : nat) : result wtensor :=
  if Nat.leb (wI cur) i then Err
  else bind (bcast (wF w) (wF cur)) (fun F => bind (bcast (wO w) (wO cur)) (fun O => bind (bcast (wR w) (wR cur)) (fun R' =>
    Ok (mkW F (wI w) O R' (fun f j o r =>
          wv w (bidx (wF w) f) j (bidx (wO w) o) (bidx (wR w) r)
          * wv cur (bidx (wF cur) f) i (bidx (wO cur) o) (bidx (wR cur) r)))))).
(** 51-54 *)
Fixpoint scaled_all (ws : list wtensor) (cur : wtensor) (i : nat) : result (list wtensor) :=
  match ws with
  | [] => Ok []
  | w :: rest => bind (scaled w cur i) (fun v => bind (scaled_all rest cur (S i)) (fun vs => Ok (v :: vs)))
  end.
(** 55: torch.concatenate(dim=1) *)
Fixpoint wconcat (ws : list wtensor) : result wtensor :=
  match ws with
  | [] => Err
  | [w] => Ok w
  | w :: rest => bind (wconcat rest) (fun t =>
      if (Nat.eqb (wF w) (wF t) && Nat.eqb (wO w) (wO t) && Nat.eqb (wR w) (wR t))%bool
      then Ok (mkW (wF w) (wI w + wI t) (wO w) (wR w)
                   (fun f j o r => if Nat.ltb j (wI w) then wv w f j o r else wv t f (j - wI w) o r))
      else Err)
  end.

(** 57-62: the inputs of the new Cat *)
Definition new_inputs (cs : list module) : list module :=
  let ins := map sum_input cs in
  if forallb is_catb ins then flat_map cat_inputs ins else ins.

(** 44-64 for a Sum (channels [co], repetitions [rr], logits [lg]) over a Cat of the Sums
    [cs].  The assignment at 63-64 checks positivity and normalisation against the new
    weights' own shape; here a shape that does not fit the new input or the node's
    out_shape (a module that cannot be evaluated consistently) counts as a failure. *)
Definition merge_sums (d2 : bool) (sc : scope) (cs : list module) (co rr : nat) (lg : nat -> nat -> nat -> nat -> R) : result module :=
  bind (scaled_all (map weights_of cs) (weights_of (MSum (MCat d2 sc cs) co rr lg)) 0) (fun us =>
  bind (wconcat us) (fun w =>
  bind (mk_cat true (new_inputs cs)) (fun c => set_weights c co rr w))).

(** 22-80.  [fuel] bounds the recursion; see [prune_sums]. *)
Fixpoint prune (fuel : nat) (m : module) : result module :=
  match fuel with
  | O => Err
  | S n =>
      match m with
      | MLeaf _ => Ok m
      | MSum ch co rr lg =>
          match ch with
          | MCat d2 sc cs =>
              if (forallb is_sumb cs && negb (Nat.eqb (length cs) 0))%bool
              then bind (merge_sums d2 sc cs co rr lg) (prune n)
              else bind (prune n ch) (fun ch' => Ok (MSum ch' co rr lg))
          | MLeaf _ => Ok m
          | _ => bind (prune n ch) (fun ch' => Ok (MSum ch' co rr lg))
          end
      | MProduct ch => bind (prune n ch) (fun ch' => Ok (MProduct ch'))
      | MCat d2 sc cs =>
          bind ((fix go (l : list module) : result (list module) :=
                   match l with
                   | [] => Ok []
                   | c :: rest => bind (prune n c) (fun c' => bind (go rest) (fun r' => Ok (c' :: r')))
                   end) cs) (fun cs' => Ok (MCat d2 sc cs'))
      end
  end.
(** number of modules: enough fuel (each call is on a circuit with fewer modules) *)
Fixpoint msize (m : module) : nat :=
  match m with
  | MLeaf _ => 1
  | MSum c _ _ _ => S (msize c)
  | MCat _ _ cs => S (list_sum (map msize cs))
  | MProduct c => S (msize c)
  end.
Definition prune_sums (m : module) : result module := prune (msize m) m.
