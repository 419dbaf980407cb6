(** Specification vocabulary for Prometheus. *)
From Coq Require Import List Arith Reals Sorted.
From Verif Require Import Base ScopeModel CircuitModel LearnModel LearnSpec CltSpec PromModel.
Import ListNotations.
Local Open Scope R_scope.

(** [B] partitions {0, .., d-1} into nonempty blocks *)
Definition partition_of (d : nat) (B : list (list nat)) : Prop :=
  (forall b, In b B -> b <> []) /\ NoDup (concat B) /\ (forall v, In v (concat B) <-> (v < d)%nat).
Definition same_block (B : list (list nat)) (u v : nat) : Prop := exists b, In b B /\ In u b /\ In v b.
(** every block of [B'] lies in a block of [B] *)
Definition refines (B' B : list (list nat)) : Prop := forall u v, same_block B' u v -> same_block B u v.

(** edges between nodes below [d], smaller node first *)
Definition edges_ok (d : nat) (E : list edge) : Prop := forall u v w, In ((u, v), w) E -> (u < v)%nat /\ (v < d)%nat.
(** joined by edges of weight above [t] *)
Definition above (E : list edge) (t : R) : nat -> nat -> Prop :=
  linked (map fst (filter (fun e => if Rlt_dec t (snd e) then true else false) E)).

From Coq Require Import Relations.
(** variables joined by a chain of pairs with nonzero affinity (above [t]) *)
Definition joined (d : nat) (A : nat -> nat -> R) : nat -> nat -> Prop :=
  clos_refl_sym_trans nat (fun u v => (u < d)%nat /\ (v < d)%nat /\ A u v <> 0).
Definition joined_above (d : nat) (A : nat -> nat -> R) (t : R) : nat -> nat -> Prop :=
  clos_refl_sym_trans nat (fun u v => (u < d)%nat /\ (v < d)%nat /\ A u v <> 0 /\ t < A u v).
(** successive refinements of {0, .., d-1}, one block more each time, down to single
    variables *)
Definition refining (d : nat) (Ps : list (list (list nat))) : Prop :=
  (forall i, (i < length Ps)%nat -> partition_of d (nth i Ps []) /\ length (nth i Ps []) = (d - length Ps + i + 1)%nat) /\
  (forall i, (S i < length Ps)%nat -> refines (nth (S i) Ps []) (nth i Ps [])).

(** what the helpers of Prometheus are expected to return, for every call *)
Record sound_poracles (P : poracles) (ps : list proto) : Prop := {
  sp_fit : forall path k q data l, (k < length ps)%nat -> po_fit P path k q data = Ok l ->
             l_scope l = mkScope q [] /\ l_ch l = p_ch (nth k ps (mkProto [] 0)) /\ l_rep l = 1%nat;
  sp_rnd : forall path k f i o r, 0 <= po_rnd P path k f i o r;
  sp_clus : forall path data q, length (po_clus P path data q) = length data;
  sp_edges : forall path k data q E, po_aff P path k data q = Ok (ASampled E) -> edges_ok (length q) E }.
(** estimating a leaf or computing an affinity raised *)
Definition helper_raises (P : poracles) : Prop :=
  (exists path k q data, po_fit P path k q data = Err) \/ (exists path k data q, po_aff P path k data q = Err).
(** a leaf returned by the estimation *)
Definition pfitted (P : poracles) (l : leaf) : Prop := exists path k q data, po_fit P path k q data = Ok l.

(** the inputs of a product: narrower circuits are widened by a Sum to the widest one's
    number of channels *)
Definition widened (subs inputs : list module) : Prop :=
  let t := list_max (map (fun m => channels (out_shape m)) subs) in
  Forall2 (fun m m' => (channels (out_shape m) = t /\ m' = m) \/ ((channels (out_shape m) < t)%nat /\ exists lg, m' = MSum m t 1 lg)) subs inputs.
(** the products [g] (with their mixture mass) made of one cluster of rows: one per
    partition of the variables, over circuits learned on the blocks *)
Definition cluster_products (P : poracles) (sub : list nat -> list nat -> module -> Prop) (path : list nat) (k N : nat)
  (q : list nat) (cd : dataset) (g : list (R * module)) : Prop :=
  ((length cd < 2)%nat /\ g = []) \/
  ((2 <= length cd)%nat /\ exists aff, po_aff P path k cd q = Ok aff /\
    Forall2 (fun part pm => fst pm = INR (length cd) / INR N / INR (length (partitions (length q) aff)) /\
        exists subs inputs, Forall2 (fun c m => sub c (map (fun i => nth i q 0%nat) c) m) part subs /\ widened subs inputs /\
          mk_product inputs = Ok (snd pm) /\
          forall x c, (c < channels (out_shape (snd pm)))%nat -> prob (snd pm) x 0 c 0 = bprod (length inputs) (fun i => prob (nth i inputs (snd pm)) x 0 c 0))
      (partitions (length q) aff) g).

(** the variable meant by choice [c] of variable [i]: all but [i] itself *)
Definition chosen (i c : nat) : nat := if Nat.ltb c i then c else S c.
Definition incident (i : nat) (e : edge) : bool := (Nat.eqb (fst (fst e)) i || Nat.eqb (snd (fst e)) i)%bool.
