(** Model of learn_spn (spflow/learn/learn_spn.py 83-143, 178-423), for scopes without
    evidence.  Clustering, partitioning, leaf estimation and random initial weights are
    oracles: they may be random, so each call also receives the position of the recursive
    call ([path]).  [None]: the recursion has not ended within [fuel] calls. *)
From Coq Require Import List Arith Bool Reals.
From Verif Require Import Base ScopeModel CircuitModel.
Import ListNotations.
Local Open Scope R_scope.

Definition dataset := list row.

Record oracles := mkOracles {
  (** partitioning_method(data[:, scope.query]) (313): an id per variable *)
  o_part : list nat -> dataset -> list nat -> list nat;
  (** clustering_method(data) for channel i (354): a label per row *)
  o_clus : list nat -> nat -> dataset -> list nat;
  (** leaf_module.__class__(scope=Scope(q), out_channels=..) followed by
      maximum_likelihood_estimation(data) (290-294) for the k-th leaf module *)
  o_fit : list nat -> nat -> list nat -> dataset -> result leaf;
  (** torch.rand for the Sum of the k-th product input (88) *)
  o_rnd : list nat -> nat -> nat -> nat -> nat -> nat -> R }.

(** a leaf module passed by the user: its scope and number of channels *)
Record proto := mkProto { p_scope : list nat; p_ch : nat }.

(** 284-296 *)
Fixpoint fit_leaves (Or : oracles) (path : list nat) (q : list nat) (data : dataset) (k : nat) (ps : list proto) : result (list module) :=
  match ps with
  | [] => Ok []
  | p :: rest =>
      let inter := sortu (filter (fun v => memb v (p_scope p)) q) in
      match inter with
      | [] => fit_leaves Or path q data (S k) rest
      | _ => bind (o_fit Or path k inter data) (fun l => bind (fit_leaves Or path q data (S k) rest) (fun ls => Ok (MLeaf l :: ls)))
      end
  end.
(** 270-304 *)
Definition mv_leaf (Or : oracles) (ps : list proto) (path q : list nat) (data : dataset) : result module :=
  bind (fit_leaves Or path q data 0 ps) (fun ls =>
    if Nat.ltb 1 (length q) then mk_product ls
    else match ls with l :: _ => Ok l | [] => Err end).

(** 319-320: positions of each id, in increasing order of id *)
Definition positions (ids : list nat) (a : nat) : list nat := filter (fun i => Nat.eqb (nth i ids 0%nat) a) (seq 0 (length ids)).
Definition blocks (q ids : list nat) : list (list nat) := map (fun a => map (fun i => nth i q 0%nat) (positions ids a)) (sortu ids).
(** 369: the rows with a given label *)
Definition rows_of (data : dataset) (labels : list nat) (a : nat) : dataset :=
  map snd (filter (fun p => Nat.eqb (fst p) a) (combine labels data)).

(** 83-92 *)
Fixpoint adapt (Or : oracles) (path : list nat) (ref : nat) (k : nat) (ms : list module) : result (list module) :=
  match ms with
  | [] => Ok []
  | m :: rest =>
      bind (if Nat.ltb (channels (out_shape m)) ref then mk_sum_rand m ref 1 (o_rnd Or path k) else Ok m) (fun m' =>
      bind (adapt Or path ref (S k) rest) (fun r' => Ok (m' :: r')))
  end.

(** 381-397: every channel of the k-th input gets (cluster size / rows) / channels *)
Fixpoint cluster_weights (n : nat) (sizes : list nat) (ms : list module) : list R :=
  match sizes, ms with
  | s :: ss, m :: rest =>
      let oc := channels (out_shape m) in
      repeat (INR s / INR n / INR oc) oc ++ cluster_weights n ss rest
  | _, _ => []
  end.
(** 386-398 *)
Definition mk_mixture (n : nat) (sizes : list nat) (ms : list module) : result module :=
  let w := cluster_weights n sizes ms in
  bind (sum_inputs ms) (fun inp => mk_sum_w inp 1 1 (W4 (mkW 1 (length w) 1 1 (fun _ i _ _ => nth i w 0)))).

(** sequencing of computations that may not have ended *)
Definition obind {A B} (x : option (result A)) (k : A -> option (result B)) : option (result B) :=
  match x with None => None | Some Err => Some Err | Some (Ok a) => k a end.
Fixpoint omapi {A B} (f : nat -> A -> option (result B)) (k : nat) (l : list A) : option (result (list B)) :=
  match l with
  | [] => Some (Ok [])
  | a :: rest => obind (f k a) (fun b => obind (omapi f (S k) rest) (fun bs => Some (Ok (b :: bs))))
  end.

Section Learn.
Variables (Or : oracles) (ps : list proto) (oc minf mini : nat).

(** 306-403 *)
Fixpoint learn (fuel : nat) (path : list nat) (data : dataset) (q : list nat) : option (result module) :=
  match fuel with
  | O => None
  | S n =>
      if Nat.ltb (length q) minf then Some (mv_leaf Or ps path q data)
      else
        let parts := if Nat.eqb (length data) 1 then [] else blocks q (o_part Or path data q) in
        if Nat.ltb 1 (length parts) then
          obind (omapi (fun k part => learn n (k :: 0%nat :: path) data part) 0 parts) (fun subs =>
          let ref := Nat.max (match ps with p :: _ => p_ch p | [] => 0%nat end) oc in
          Some (bind (adapt Or path ref 0 subs) mk_product))
        else if Nat.ltb (length data) mini then Some (mv_leaf Or ps path q data)
        else
          obind (omapi (fun i _ =>
                   let labels := o_clus Or path i data in
                   let ids := sortu labels in
                   obind (omapi (fun k a => learn n (k :: S i :: path) (rows_of data labels a) q) 0 ids) (fun subs =>
                   Some (mk_mixture (length data) (map (fun a => length (rows_of data labels a)) ids) subs)))
                 0 (seq 0 oc)) (fun sums =>
          match sums with
          | [s] => Some (Ok s)
          | _ => Some (mk_cat true sums)
          end)
  end.
(** 221-233: the scope when none is given *)
Definition default_scope : result (list nat) :=
  match ps with
  | [] => Err
  | _ =>
      bind (if Nat.ltb 1 (length ps) then all_pairwise_disjoint (map (fun p => mkScope (p_scope p) []) ps) else Ok true) (fun b =>
      if b then bind (join_all (map (fun p => mkScope (p_scope p) []) ps)) (fun sc => Ok (query sc)) else Err)
  end.
(** 178-233, 261-268, 306-403; leaf_modules is a list, [fuel] bounds the recursion *)
Definition learn_spn (fuel : nat) (data : dataset) (q : option (list nat)) : option (result module) :=
  match (match q with None => default_scope | Some q => Ok q end) with
  | Err => Some Err
  | Ok q => if (Nat.ltb mini 2 || Nat.ltb minf 2)%bool then Some Err else learn fuel [] data q
  end.
End Learn.
