(** Properties C15, C43, C63, C64, C65: expectation maximisation. *)
From Coq Require Import List Arith Bool Lia Lra.
From Verif Require Import Base ScopeModel CircuitModel CircuitBasics CircuitEval CircuitSpec CircuitExamples CircuitProps SampleSpec SampleExamples CacheModel EmModel EmProofs EmTop EmDriver EmDagModel EmExamples.
Import ListNotations.
Local Open Scope R_scope.

(** C15.  [em_update] is one EM step on a batch of [B] rows [x] for a circuit
    without shared modules; leaves have no learnable parameters.  acc_ll is the
    total log_likelihood of the batch.  No value is -inf before or after. *)
Theorem C15_em_monotone : forall m x B m' s, built m -> ll_shape m = Ok s -> (0 < repetitions s)%nat -> (0 < B)%nat ->
  leaves_positive m x B -> em_update (fun l _ => l) m x B = Ok m' ->
  acc_ll m x B <= acc_ll m' x B /\
  (forall b f c r, (b < B)%nat -> (f < features s)%nat -> (c < channels s)%nat -> (r < repetitions s)%nat ->
     loglik m (x b) f c r <> NInf /\ loglik m' (x b) f c r <> NInf).
Proof. exact c15. Qed.
Print Assumptions C15_em_monotone.

(** with a leaf update [U] that does not decrease the leaf's own weighted
    log-likelihood *)
Theorem C15_em_monotone_leaves : forall U m x B m' s, built m -> ll_shape m = Ok s -> (0 < repetitions s)%nat -> (0 < B)%nat ->
  leaves_positive m x B -> (forall l, node_of (MLeaf l) m -> leaf_update_ok U x B l) ->
  em_update U m x B = Ok m' ->
  acc_ll m x B <= acc_ll m' x B /\ ll_shape m = Ok s /\
  (forall b f c r, (b < B)%nat -> (f < features s)%nat -> (c < channels s)%nat -> (r < repetitions s)%nat ->
     loglik m (x b) f c r <> NInf /\ loglik m' (x b) f c r <> NInf).
Proof. exact c15_gen. Qed.
Print Assumptions C15_em_monotone_leaves.

(** the step succeeds when all modules have the same number of repetitions *)
Theorem C15_em_succeeds : forall U m K, (forall l G, l_rep (U l G) = l_rep l) -> wf m -> uniform K m -> (0 < K)%nat ->
  forall x B G, exists m', em_step x B U m G = Ok m'.
Proof. exact em_step_ok. Qed.
Print Assumptions C15_em_succeeds.

Example C15_nonvacuous : built gr /\ ll_shape gr = Ok (mkShape 1 1 1) /\ leaves_positive gr (fun b => at0 (if Nat.eqb b 0 then 0 else 1)) 2 /\
  exists m', em_update (fun l _ => l) gr (fun b => at0 (if Nat.eqb b 0 then 0 else 1)) 2 = Ok m'.
Proof.
  split; [exact gr_built|]. split; [reflexivity|]. split; [|eexists; reflexivity].
  intros l Hl b f c r Hb Hf Hc Hr. unfold gr in Hl. inversion Hl; subst.
  match goal with H : node_of _ grL |- _ => inversion H; subst end.
  cbn in Hf. assert (f = 0%nat) as -> by lia.
  unfold leaf_score. cbn [l_scope bern query nth at0 Nat.eqb l_lp]. unfold bern_lp, lfrom.
  destruct (Nat.eqb b 0); repeat match goal with |- context[Req_EM_T ?a ?b] => destruct (Req_EM_T a b); try lra end;
   destruct (Nat.eqb c 0); match goal with |- context[Rlt_dec ?a ?b] => destruct (Rlt_dec a b); try lra end; discriminate.
Qed.

(** C43 *)
Theorem C43_em_driver : forall (state : Type) (ev : state -> fl) (upd : state -> state) n s0, (0 < n)%nat ->
  exists k, em_driver state ev upd n s0 = Ok (map (fun i => ev (Nat.iter i upd s0)) (seq 0 k), Nat.iter k upd s0) /\
  (1 <= k <= n)%nat /\
  (forall i, (i + 1 < k)%nat -> fle (ev (Nat.iter i upd s0)) (before ev upd s0 i) = false) /\
  (k = n \/ fle (ev (Nat.iter (k - 1) upd s0)) (before ev upd s0 (k - 1)) = true).
Proof. exact @c43. Qed.
Print Assumptions C43_em_driver.

(** the mini-batch driver: every batch is scored, then used for one update, in
    order, every epoch; an epoch's entry is the average over its rows *)
Theorem C43_em_batched : forall (state batch : Type) (acc : state -> batch -> R) size upd bs k s0,
  em_batched state batch acc size upd k bs s0 =
  (map (fun e => let s := Nat.iter e (fold_left upd bs) s0 in
        if Nat.eqb (rows size bs) 0 then None else Some (lsumR (scores acc upd bs s) / INR (rows size bs))) (seq 0 k),
   Nat.iter k (fold_left upd bs) s0).
Proof.
  intros. rewrite c43b. f_equal. apply map_ext. intros e. now rewrite epoch_spec.
Qed.
Print Assumptions C43_em_batched.

Example C43_run : em_driver nat (fun n => FFin (INR (Nat.min n 2))) S 10 0%nat = Ok ([FFin 0; FFin 1; FFin 2; FFin 2], 4%nat).
Proof.
  unfold em_driver. cbn [em_loop Nat.min fle].
  repeat match goal with |- context[Rle_dec ?a ?b] => destruct (Rle_dec a b); [try (exfalso; cbn in *; lra)|try (exfalso; cbn in *; lra)] end.
  cbn. repeat f_equal; lra.
Qed.

(** max_steps = 0 raises *)
Theorem C43_zero_steps : forall (state : Type) ev upd s0, em_driver state ev upd 0 s0 = Err.
Proof. reflexivity. Qed.

(** C65: a NaN likelihood never stops the loop *)
Theorem C65_nan_never_stops_refuted : exists (state : Type) (ev : state -> fl) upd s0,
  (forall s, ev s = FNan) /\ forall n, (0 < n)%nat -> exists h t, em_driver state ev upd n s0 = Ok (h, t) /\ length h = n.
Proof.
  exists nat, (fun _ => FNan), S, 0%nat. split; [reflexivity|]. intros n Hn.
  destruct (c43 (fun _ : nat => FNan) S n 0%nat Hn) as (k & E & Hk & _ & [->|H]); [|discriminate].
  do 2 eexists. split; [exact E|]. now rewrite map_length, seq_length.
Qed.
Print Assumptions C65_nan_never_stops_refuted.

(** C63: the circuit has positive likelihood on every row, yet the step gives one
    of its Sums NaN weights, whatever gradients arrive there *)
Theorem C63_em_nan_refuted : exists m x B ch co rr lg,
  built m /\ node_of (MSum ch co rr lg) m /\ (forall b, (b < B)%nat -> 0 < joint m (x b)) /\ (0 < B)%nat /\
  forall G, new_log_weights_fl x B ch co rr lg G 0 0 0 0 = FNan.
Proof.
  exists br, (fun _ => one_row), 1%nat, (MLeaf (unif [0]%nat 1 (fun _ _ => 1))), 1%nat, 1%nat, (fun _ _ _ _ => 0).
  split; [exact br_built|]. split; [apply node_sum; apply node_cat with brB; [right; now left|constructor]|].
  split; [intros; rewrite br_prob; lra|]. split; [lia|].
  intros G. apply em_nan with 0%nat; [lia|]. fold brB. apply pr_zero_NInf. fold (prob brB one_row 0 0 0).
  unfold brB. rewrite (brs_prob (fun _ _ => 1) one_row 1) by reflexivity. unfold unif_lp. destruct (Rle_dec 0 1); [|lra]. destruct (Rlt_dec 1 1); [lra|]. reflexivity.
Qed.
Print Assumptions C63_em_nan_refuted.

(** one row a Sum gives probability 0 is enough, for every circuit *)
Theorem C63_em_nan : forall x B ch co rr lg G f i o r b, (b < B)%nat -> loglik (MSum ch co rr lg) (x b) f o r = NInf ->
  new_log_weights_fl x B ch co rr lg G f i o r = FNan.
Proof. exact em_nan. Qed.
Print Assumptions C63_em_nan.

(** C64: a Sum used twice is updated twice; the likelihood of the batch drops *)
Theorem C64_em_shared_refuted : exists g x B, ordered g /\
  (forall b, (b < B)%nat -> loglik (last (circuits g) no_module) (x b) 0 0 0 <> NInf) /\
  (forall b, (b < B)%nat -> loglik (last (circuits (em_update_dag g x B)) no_module) (x b) 0 0 0 <> NInf) /\
  acc_ll (last (circuits (em_update_dag g x B)) no_module) x B < acc_ll (last (circuits g) no_module) x B.
Proof.
  exists shared, shared_x, 3%nat. split; [|split; [|split; [|exact shared_decreases]]].
  - intros i Hi c Hc. cbn in Hi. do 4 (destruct i as [|i]; [cbn in Hc; intuition lia|]). lia.
  - exact shared_finite.
  - exact shared_finite'.
Qed.
Print Assumptions C64_em_shared_refuted.
