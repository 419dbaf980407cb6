(** Properties C13, C14: the inference cache. *)
From Coq Require Import List Arith Lia Lra.
From Verif Require Import Base ScopeModel CircuitModel CircuitExamples SampleExamples SampleSpec CacheModel CacheProofs.
Import ListNotations.
Local Open Scope R_scope.

(** C13.  [circuits g] are the circuits the objects [g] denote (shared objects are
    duplicated); the trace lists the objects whose log_likelihood body ran. *)
Theorem C13_cache_transparent : forall g x i, ordered g -> (i < length g)%nat ->
  exists c tr, log_likelihood g x [] i = (loglik (nth i (circuits g) no_module) x, c, tr) /\ NoDup tr.
Proof. exact c13. Qed.
Print Assumptions C13_cache_transparent.

(** the cache can be shared by several calls on the same data *)
Theorem C13_cache_same_data : forall g x i j, ordered g -> (i < length g)%nat -> (j < length g)%nat ->
  forall v c tr, log_likelihood g x [] i = (v, c, tr) ->
  exists c' tr', log_likelihood g x c j = (loglik (nth j (circuits g) no_module) x, c', tr') /\ NoDup (tr ++ tr').
Proof. exact c13_shared. Qed.
Print Assumptions C13_cache_same_data.

(** a DAG: the leaf 0 is an input of both sums 1 and 2, joined by 3 *)
Definition dag : list node :=
  [NLeaf (bern [0]%nat 1 1 (fun _ _ _ => 1/4)); NSum 0 1 1 (fun _ _ _ _ => 0); NSum 0 1 1 (fun _ _ _ _ => 0);
   NCat true (mkScope [0]%nat []) [1; 2]%nat; NSum 3 1 1 (fun _ _ _ _ => 0)].
Example C13_nonvacuous : ordered dag /\ snd (log_likelihood dag (fun _ => None) [] 4) = [0; 1; 2; 3; 4]%nat.
Proof.
  split; [|reflexivity]. intros i Hi c Hc. cbn in Hi.
  do 5 (destruct i as [|i]; [cbn in Hc; intuition lia|]). lia.
Qed.

(** C14: with the same cache the second batch gets the result of the first *)
Theorem C14_cache_reuse_refuted : exists g x x' i v c tr,
  ordered g /\ (i < length g)%nat /\ log_likelihood g x [] i = (v, c, tr) /\
  pr (fst (fst (log_likelihood g x' c i)) 0%nat 0%nat 0%nat) <> pr (loglik (nth i (circuits g) no_module) x' 0 0 0).
Proof.
  set (g := [NLeaf (bern [0]%nat 1 1 (fun _ _ _ => 1/4))]).
  assert (ordered g) as O by (intros i Hi c Hc; destruct i; [destruct Hc|cbn in Hi; lia]).
  exists g, (at0 0), (at0 1), 0%nat. do 3 eexists. split; [exact O|]. split; [cbn; lia|].
  split; [reflexivity|]. cbn. unfold leaf_score. cbn. rewrite pr_bern_0, pr_bern_1; lra.
Qed.
Print Assumptions C14_cache_reuse_refuted.

Theorem C14_cache_stale : forall g x x' i, ordered g -> (i < length g)%nat ->
  forall v c tr, log_likelihood g x [] i = (v, c, tr) ->
  log_likelihood g x' c i = (loglik (nth i (circuits g) no_module) x, c, []).
Proof. exact c14_stale. Qed.
Print Assumptions C14_cache_stale.
