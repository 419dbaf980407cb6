(** Specification vocabulary for Chow-Liu trees (C34, C104-C110). *)
From Coq Require Import List Arith ZArith Bool Reals.
From Verif Require Import Base CltModel.
Import ListNotations.
Local Open Scope R_scope.

(** [parents] is a rooted tree: one root; every node reaches it in finitely many
    parent steps *)
Inductive reaches (parents : list Z) (root : nat) : nat -> Prop :=
| reach_root : reaches parents root root
| reach_step i p : (i < length parents)%nat -> (p < length parents)%nat -> nth i parents (-1)%Z = Z.of_nat p ->
    reaches parents root p -> reaches parents root i.
Definition rooted_tree (parents : list Z) (root : nat) : Prop :=
  (root < length parents)%nat /\ nth root parents (-1)%Z = (-1)%Z /\
  (forall i, (i < length parents)%nat -> nth i parents (-1)%Z = (-1)%Z -> i = root) /\
  forall i, (i < length parents)%nat -> reaches parents root i.

(** probability of an assignment: root probability times conditionals *)
Definition tree_prob (parents : list Z) (q : nat -> nat -> nat -> R) (x : nat -> nat) : R :=
  bprod (length parents) (fun i =>
    if Z.eqb (nth i parents (-1)%Z) (-1) then q i (x i) 0%nat
    else q i (x i) (x (Z.to_nat (nth i parents (-1)%Z)))).

(** sum of [g] over all values in {0..K-1} of the features [vs], the others as in [x] *)
Fixpoint fsum (K : nat) (vs : list nat) (g : (nat -> nat) -> R) (x : nat -> nat) : R :=
  match vs with
  | [] => g x
  | v :: rest => bsum K (fun k => fsum K rest g (fun j => if Nat.eqb j v then k else x j))
  end.

(** [vs] are the missing features among the first [F] *)
Definition missing_of (F : nat) (ob : nat -> option nat) (vs : list nat) : Prop :=
  NoDup vs /\ forall v, In v vs <-> (v < F)%nat /\ ob v = None.
(** [x] has the observed values and values below [K] *)
Definition agrees (F K : nat) (ob : nat -> option nat) (x : nat -> nat) : Prop :=
  forall i, (i < F)%nat -> (x i < K)%nat /\ forall v, ob i = Some v -> x i = v.

(** ** Spanning trees of a complete graph with [F] nodes: undirected edge lists *)
Inductive linked (E : list (nat * nat)) : nat -> nat -> Prop :=
| l_refl u : linked E u u
| l_step u v w : linked E u v -> (In (v, w) E \/ In (w, v) E) -> linked E u w.
Definition spanning (F : nat) (E : list (nat * nat)) : Prop :=
  (forall u v, In (u, v) E -> (u < F)%nat /\ (v < F)%nat) /\
  (forall u v, (u < F)%nat -> (v < F)%nat -> linked E u v) /\ S (length E) = F.
Definition weight (w : nat -> nat -> R) (E : list (nat * nat)) : R := lsumR (map (fun e => w (fst e) (snd e)) E).
(** the edges of a parent vector *)
Definition tree_edges (parents : list Z) : list (nat * nat) :=
  flat_map (fun i => if Z.eqb (nth i parents (-1)%Z) (-1) then [] else [(Z.to_nat (nth i parents (-1)%Z), i)])
    (seq 0 (length parents)).


(** [ob] is what the row [x] observes: NaN cells are [None], the others hold a
    category below [K] *)
Definition observes (F K : nat) (x : cells) (ob : nat -> option nat) : Prop :=
  forall i, (i < F)%nat -> match ob i with None => x i = None | Some k => (k < K)%nat /\ x i = Some (INR k) end.
(** the row [x] with the requested NaN cells replaced by [y] *)
Definition fill (x : cells) (mask : nat -> bool) (y : nat -> nat) : cells :=
  fun j => match x j with Some v => Some v | None => if mask j then Some (INR (y j)) else None end.
(** [g] depends only on the first [F] cells *)
Definition first_cells (F : nat) (g : cells -> R) : Prop :=
  forall x y, (forall j, (j < F)%nat -> x j = y j) -> g x = g y.
(** total weight of the rows satisfying [sel] *)
Definition wsum (d : list (R * (nat -> nat))) (sel : (nat -> nat) -> bool) : R :=
  lsumR (map fst (filter (fun wx => sel (snd wx)) d)).
(** every conditional table is normalised (the root has the parent value 0) *)
Definition normalised_tables (F K : nat) (parents : list Z) (q : nat -> nat -> nat -> R) : Prop :=
  forall i xp, (i < F)%nat -> (xp < K)%nat -> (nth i parents (-1)%Z = (-1)%Z -> xp = 0%nat) -> bsum K (fun k => q i k xp) = 1.
