(** Properties C16 (scope algebra) and C17 (hash), about ScopeModel. *)
From Coq Require Import List ZArith Arith Bool Lia Sorted.
From Verif Require Import Base ScopeModel ScopeProofs.
Import ListNotations.

(** The constructor accepts exactly duplicate-free, non-negative, disjoint
    query/evidence lists with evidence only for a non-empty query. *)
Theorem C16_constructor : forall q e : list Z,
  let good := (forall v, In v q -> (0 <= v)%Z) /\ (forall v, In v e -> (0 <= v)%Z) /\
              NoDup q /\ NoDup e /\ (forall v, In v q -> ~ In v e) /\ (q = [] -> e = []) in
  (good -> exists s, scope_init q e = Ok s /\ map Z.of_nat (query s) = q /\ map Z.of_nat (evidence s) = e)
  /\ (~ good -> scope_init q e = Err).
Proof. exact scope_init_spec. Qed.
Print Assumptions C16_constructor.

Example C16_constructor_ex :
  scope_init [3; 0; 7]%Z [5]%Z = Ok (mkScope [3; 0; 7] [5]) /\ scope_init [1; 1]%Z [] = Err
  /\ scope_init [] [2]%Z = Err /\ scope_init [-1]%Z [] = Err /\ scope_init [1]%Z [1]%Z = Err.
Proof. repeat split. Qed.

(** Equality is equality of the sets of query and of evidence variables. *)
Theorem C16_equality : forall s t,
  scope_eqb s t = true <->
  (forall v, In v (query s) <-> In v (query t)) /\ (forall v, In v (evidence s) <-> In v (evidence t)).
Proof. exact scope_eqb_spec. Qed.
Print Assumptions C16_equality.

(** join succeeds on scopes and is the union; evidence loses the joined query. *)
Theorem C16_join : forall a b, valid a -> valid b ->
  exists s, join a b = Ok s /\ valid s /\
    StronglySorted lt (query s) /\ StronglySorted lt (evidence s) /\
    (forall v, In v (query s) <-> In v (query a) \/ In v (query b)) /\
    (forall v, In v (evidence s) <->
       (In v (evidence a) \/ In v (evidence b)) /\ ~ In v (query a) /\ ~ In v (query b)).
Proof.
  exact (fun a b Ha Hb => ex_intro _ (join_of a b)
    (conj (proj1 (join_ok a b Ha Hb)) (conj (proj2 (join_ok a b Ha Hb))
    (conj (proj1 (join_of_sorted a b)) (conj (proj2 (join_of_sorted a b))
    (conj (join_of_query a b) (join_of_evidence a b))))))).
Qed.
Print Assumptions C16_join.

Example C16_join_ex :
  valid (mkScope [4; 1] [2]) /\ valid (mkScope [2] [9; 1]) /\
  join (mkScope [4; 1] [2]) (mkScope [2] [9; 1]) = Ok (mkScope [1; 2; 4] [9]).
Proof.
  split; [apply (init_valid [4; 1] [2]); reflexivity|].
  split; [apply (init_valid [2] [9; 1]); reflexivity|reflexivity].
Qed.

Theorem C16_join_comm : forall a b, valid a -> valid b -> join a b = join b a.
Proof.
  exact (fun a b Ha Hb => eq_trans (proj1 (join_ok a b Ha Hb))
     (eq_trans (f_equal Ok (join_of_comm a b)) (eq_sym (proj1 (join_ok b a Hb Ha))))).
Qed.
Print Assumptions C16_join_comm.

Theorem C16_join_assoc : forall a b c, valid a -> valid b -> valid c ->
  bind (join a b) (fun ab => join ab c) = bind (join b c) (fun bc => join a bc).
Proof.
  exact (fun a b c Ha Hb Hc =>
    match join_ok a b Ha Hb, join_ok b c Hb Hc with
    | conj E1 V1, conj E2 V2 =>
      eq_trans (f_equal (fun r => bind r (fun ab => join ab c)) E1)
       (eq_trans (proj1 (join_ok _ c V1 Hc))
        (eq_trans (f_equal Ok (join_of_assoc a b c))
         (eq_trans (eq_sym (proj1 (join_ok a _ Ha V2)))
           (eq_sym (f_equal (fun r => bind r (fun bc => join a bc)) E2)))))
    end).
Qed.
Print Assumptions C16_join_assoc.

Theorem C16_join_idem : forall a, valid a -> exists s, join a a = Ok s /\ scope_eqb s a = true.
Proof. exact (fun a Ha => ex_intro _ _ (conj (proj1 (join_ok a a Ha Ha)) (join_of_idem a Ha))). Qed.
Print Assumptions C16_join_idem.

Theorem C16_join_all : forall l, l <> [] -> Forall valid l ->
  exists s, join_all l = Ok s /\ valid s /\
    (forall v, In v (query s) <-> exists t, In t l /\ In v (query t)) /\
    (forall v, In v (evidence s) <-> (exists t, In t l /\ In v (evidence t)) /\ ~ In v (query s)).
Proof. exact join_all_ok. Qed.
Print Assumptions C16_join_all.

Theorem C16_all_pairwise_disjoint : forall l, Forall valid l ->
  exists b, all_pairwise_disjoint l = Ok b /\
    (b = true <-> ForallOrdPairs (fun s t => forall v, In v (query s) -> ~ In v (query t)) l).
Proof. exact all_pairwise_disjoint_spec. Qed.
Print Assumptions C16_all_pairwise_disjoint.

Example C16_apd_ex :
  all_pairwise_disjoint [mkScope [0; 5] []; mkScope [3] [0]; mkScope [1; 2] []] = Ok true /\
  all_pairwise_disjoint [mkScope [0; 5] []; mkScope [3] []; mkScope [1; 0] []] = Ok false.
Proof. split; reflexivity. Qed.

Theorem C16_all_equal : forall l,
  all_equal l = true <-> (forall s t, In s l -> In t l -> scope_eqb s t = true).
Proof. exact all_equal_spec. Qed.
Print Assumptions C16_all_equal.

Theorem C16_remove_from_query : forall s v, valid s ->
  (In v (query s) -> (exists u, In u (query s) /\ u <> v) \/ evidence s = [] ->
     exists t, remove_from_query s v = Ok t /\ valid t /\ evidence t = evidence s /\
               forall u, In u (query t) <-> In u (query s) /\ u <> v)
  /\ (~ In v (query s) -> remove_from_query s v = Err).
Proof. exact remove_from_query_spec. Qed.
Print Assumptions C16_remove_from_query.

Example C16_remove_ex : remove_from_query (mkScope [4; 2; 7] [1]) 2 = Ok (mkScope [4; 7] [1]).
Proof. reflexivity. Qed.

(** The full C17 statement, [forall s t, valid s -> valid t -> scope_eqb s t = true ->
    scope_hash s = scope_hash t], is false of the code: [Scope([0, 1])] equals
    [Scope([1, 0])] but hashes differently. *)
Theorem C17_hash_refuted :
  exists s t, valid s /\ valid t /\ scope_eqb s t = true /\ scope_hash s <> scope_hash t.
Proof.
  exact (ex_intro _ (mkScope [0; 1] []) (ex_intro _ (mkScope [1; 0] [])
    (conj (proj2 (proj1 (scope_init_nat_ok [0; 1] [] (mkScope [0; 1] [])) eq_refl))
    (conj (proj2 (proj1 (scope_init_nat_ok [1; 0] [] (mkScope [1; 0] [])) eq_refl))
    (conj eq_refl (fun H => Bool.diff_false_true
       (eq_trans (eq_sym (eq_refl : Z.eqb (scope_hash (mkScope [0; 1] [])) (scope_hash (mkScope [1; 0] [])) = false))
                 (proj2 (Z.eqb_eq _ _) H)))))))).
Qed.
Print Assumptions C17_hash_refuted.

(** What does hold: scopes whose tuples are sorted (e.g. all results of join)
    hash equally when they are equal. *)
Theorem C17_hash_sorted_partial : forall s t,
  StronglySorted lt (query s) -> StronglySorted lt (query t) ->
  StronglySorted lt (evidence s) -> StronglySorted lt (evidence t) ->
  scope_eqb s t = true -> scope_hash s = scope_hash t.
Proof.
  exact (fun s t A B C D E => f_equal scope_hash
    (scope_ext s t A B C D (proj1 (proj1 (scope_eqb_spec s t) E)) (proj2 (proj1 (scope_eqb_spec s t) E)))).
Qed.
Print Assumptions C17_hash_sorted_partial.
