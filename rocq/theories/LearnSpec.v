(** Specification vocabulary for learn_spn. *)
From Coq Require Import List Arith Reals Sorted.
From Verif Require Import Base ScopeModel CircuitModel LearnModel.
Import ListNotations.

(** what the helpers are expected to return, for every call *)
Record sound_oracles (O : oracles) (ps : list proto) : Prop := {
  so_part : forall path data q, length (o_part O path data q) = length q;
  so_clus : forall path i data, length (o_clus O path i data) = length data;
  so_fit : forall path k q data l, (k < length ps)%nat -> o_fit O path k q data = Ok l ->
             l_scope l = mkScope q [] /\ l_ch l = p_ch (nth k ps (mkProto [] 0)) /\ l_rep l = 1%nat;
  so_rnd : forall path k f i o r, (0 <= o_rnd O path k f i o r)%R }.

(** estimating a leaf raised *)
Definition fit_raises (O : oracles) : Prop := exists path k q data, o_fit O path k q data = Err.

(** the leaf modules cover the scope, are disjoint and have the same number of channels *)
Definition usable (ps : list proto) (pc : nat) (q : list nat) : Prop :=
  (1 <= pc)%nat /\ (forall p, In p ps -> p_ch p = pc) /\
  ForallOrdPairs (fun a b => forall v, In v (p_scope a) -> ~ In v (p_scope b)) ps /\
  (forall v, In v q -> exists p, In p ps /\ In v (p_scope p)).

(** a leaf returned by the estimation *)
Definition fitted (O : oracles) (l : leaf) : Prop := exists path k q data, o_fit O path k q data = Ok l.
(** the clustering splits every slice of at least [mini] rows *)
Definition splits (O : oracles) (mini : nat) : Prop := forall path i data, (mini <= length data)%nat ->
  exists a b, In a (o_clus O path i data) /\ In b (o_clus O path i data) /\ a <> b.
