(** Concrete circuits for the EM properties. *)
From Coq Require Import List Arith Bool Lia Lra.
From Verif Require Import Base ScopeModel CircuitModel CircuitBasics CircuitEval CircuitExamples SampleExamples SampleSpec CacheModel EmModel EmProofs EmDagModel.
Import ListNotations.
Local Open Scope R_scope.

(** Uniform(low=[0,2], high=[1,3]): two channels with disjoint supports *)
Definition two_unif : leaf :=
  mkLeaf (mkScope [0]%nat []) 2 1 (fun _ c _ => if Nat.eqb c 0 then unif_lp 0 1 else unif_lp 2 3) (fun _ c _ => if Nat.eqb c 0 then 1/2 else 5/2).
Definition w_lg : nat -> nat -> nat -> nat -> R := fun _ i _ _ => if Nat.eqb i 0 then ln (4/5) else ln (1/5).
(** objects: the leaf, a Sum [S] with weights 4/5, 1/5, Cat([S, S]) and a root Sum *)
Definition shared : list node :=
  [NLeaf two_unif; NSum 0 1 1 w_lg; NCat true (mkScope [0]%nat []) [1; 1]%nat; NSum 2 1 1 (fun _ _ _ _ => 0)].
Definition shared_x (b : nat) : row := at0 (if Nat.eqb b 2 then 5/2 else 1/2).

Definition leafp (b k : nat) : R := if Nat.eqb b 2 then (if Nat.eqb k 0 then 0 else 1) else (if Nat.eqb k 0 then 1 else 0).
Lemma leafp_ok b k : pr (loglik (MLeaf two_unif) (shared_x b) 0 k 0) = leafp b k.
Proof.
  unfold loglik. cbn [evalm]. unfold leaf_score, shared_x, at0, leafp. cbn [two_unif l_scope query nth Nat.eqb l_lp].
  destruct (Nat.eqb b 2), (Nat.eqb k 0); unfold unif_lp;
    repeat match goal with |- context[Rle_dec ?a ?b] => destruct (Rle_dec a b); try lra
                      | |- context[Rlt_dec ?a ?b] => destruct (Rlt_dec a b); try lra end; cbn [pr]; try lra.
  - replace (3 - 2) with 1 by lra. now rewrite ln_1, Ropp_0, exp_0.
  - replace (1 - 0) with 1 by lra. now rewrite ln_1, Ropp_0, exp_0.
Qed.

(** probability of row [b] under a Sum over the leaf *)
Lemma sum_leaf lg b o r : pr (loglik (MSum (MLeaf two_unif) 1 1 lg) (shared_x b) 0 o r) =
  softmax 2 (fun i => lg 0%nat i o 0%nat) 0 * leafp b 0 + softmax 2 (fun i => lg 0%nat i o 0%nat) 1 * leafp b 1.
Proof.
  unfold loglik. fold (pev (leaf_score (shared_x b)) (MSum (MLeaf two_unif) 1 1 lg) 0 o r). rewrite pev_sum by (cbn; lia).
  change (channels (out_shape (MLeaf two_unif))) with 2%nat. cbn [bsum].
  change (bidx 1 r) with 0%nat. change (bidx (ll_reps (MLeaf two_unif)) r) with 0%nat.
  unfold pev. fold (loglik (MLeaf two_unif) (shared_x b) 0 0 0). fold (loglik (MLeaf two_unif) (shared_x b) 0 1 0).
  rewrite !leafp_ok. lra.
Qed.

(** the circuit the objects denote, for logits [lg] of S and [lr] of the root *)
Definition shared_c lg lr : module :=
  MSum (MCat true (mkScope [0]%nat []) [MSum (MLeaf two_unif) 1 1 lg; MSum (MLeaf two_unif) 1 1 lg]) 1 1 lr.
Lemma shared_p lg lr b : pr (loglik (shared_c lg lr) (shared_x b) 0 0 0) = pr (loglik (MSum (MLeaf two_unif) 1 1 lg) (shared_x b) 0 0 0).
Proof.
  unfold loglik at 1. fold (pev (leaf_score (shared_x b)) (shared_c lg lr) 0 0 0). unfold shared_c. rewrite pev_sum by (cbn; lia).
  match goal with |- context[channels ?o] => change (channels o) with 2%nat end.
  assert (forall i, (i < 2)%nat -> pev (leaf_score (shared_x b)) (MCat true (mkScope [0]%nat []) [MSum (MLeaf two_unif) 1 1 lg; MSum (MLeaf two_unif) 1 1 lg]) 0 i 0
     = pr (loglik (MSum (MLeaf two_unif) 1 1 lg) (shared_x b) 0 0 0)) as E.
  { intros i Hi. destruct i as [|[|i]]; [reflexivity|reflexivity|lia]. }
  pose proof (softmax_sum 2 (fun i => lr 0%nat i 0%nat 0%nat) ltac:(lia)) as S1.
  rewrite (bsum_ext 2 _ (fun ci => softmax 2 (fun i => lr 0%nat i 0%nat 0%nat) ci * pr (loglik (MSum (MLeaf two_unif) 1 1 lg) (shared_x b) 0 0 0))).
  - rewrite bsum_scal_r. rewrite S1. lra.
  - intros i Hi. change (bidx 1 0) with 0%nat. rewrite <- (E i Hi). f_equal.
Qed.

Definition half_grads : grads := fun b f c r =>
  bsum 1 (fun o => (fun _ _ _ _ => 1) b f o r * pr (resp_now shared_x (circuits shared) 3 2 (fun _ _ _ _ => 0) b f c o r)).
Definition S_grads : grads := fun b f k r => (0 + (0 + half_grads b f (0 + k)%nat r)) + (0 + half_grads b f (1 + k)%nat r).

Lemma softmax_w : softmax 2 (fun i => w_lg 0%nat i 0%nat 0%nat) 0 = 4/5 /\ softmax 2 (fun i => w_lg 0%nat i 0%nat 0%nat) 1 = 1/5.
Proof. unfold softmax, w_lg. cbn [bsum Nat.eqb]. rewrite !exp_ln by lra. lra. Qed.

Lemma S_prob b : (b < 3)%nat -> pr (loglik (MSum (MLeaf two_unif) 1 1 w_lg) (shared_x b) 0 0 0) = if Nat.eqb b 2 then 1/5 else 4/5.
Proof.
  intros Hb. rewrite sum_leaf. destruct softmax_w as [-> ->]. unfold leafp. destruct (Nat.eqb b 2); cbn [Nat.eqb]; lra.
Qed.

Lemma half_ok b k : (b < 3)%nat -> (k < 2)%nat -> half_grads b 0%nat k 0%nat = 1/2.
Proof.
  intros Hb Hk. unfold half_grads. cbn [bsum].
  assert (at_ (circuits shared) 3 = shared_c w_lg (fun _ _ _ _ => 0)) as E3 by reflexivity.
  assert (at_ (circuits shared) 2 = MCat true (mkScope [0]%nat []) [MSum (MLeaf two_unif) 1 1 w_lg; MSum (MLeaf two_unif) 1 1 w_lg]) as E2 by reflexivity.
  unfold resp_now. rewrite E3, E2.
  assert (0 < pr (loglik (MSum (MLeaf two_unif) 1 1 w_lg) (shared_x b) 0 0 0)) as HP by (rewrite S_prob by assumption; destruct (Nat.eqb b 2); lra).
  rewrite pr_lsub by (rewrite shared_p; exact HP). rewrite shared_p, pr_ladd.
  match goal with |- context[channels ?o] => change (channels o) with 2%nat end. cbn [pr].
  rewrite exp_log_softmax by lia.
  assert (softmax 2 (fun _ => 0) k = 1/2) as ->.
  { unfold softmax. cbn [bsum]. rewrite exp_0. lra. }
  assert (loglik (MCat true (mkScope [0]%nat []) [MSum (MLeaf two_unif) 1 1 w_lg; MSum (MLeaf two_unif) 1 1 w_lg]) (shared_x b) 0 k 0
     = loglik (MSum (MLeaf two_unif) 1 1 w_lg) (shared_x b) 0 0 0) as ->.
  { destruct k as [|[|k]]; [reflexivity|reflexivity|lia]. }
  field. lra.
Qed.

Lemma S_grads_ok b : (b < 3)%nat -> S_grads b 0%nat 0%nat 0%nat = 1.
Proof. intros Hb. unfold S_grads. cbn [Nat.add]. rewrite !half_ok by lia. lra. Qed.

(** the two updates of S *)
Lemma new_S gs lg a k : gs 1%nat = S_grads -> softmax 2 (fun i => lg 0%nat i 0%nat 0%nat) 0 = a -> softmax 2 (fun i => lg 0%nat i 0%nat 0%nat) 1 = 1 - a -> 0 < a < 1 ->
  (k < 2)%nat ->
  exp (new_log_weights shared_x 3 (circuits shared) gs 1 0 lg 0 k 0 0) =
  let n0 := 2 * a / (4/5) in let n1 := (1 - a) / (1/5) in (if Nat.eqb k 0 then n0 else n1) / (n0 + n1).
Proof.
  intros Eg E0 E1 Ha Hk. unfold new_log_weights.
  set (e := fun k => lse 3 (fun b => ladd (lfrom (gs 1%nat b 0%nat 0%nat 0%nat)) (resp_now shared_x (circuits shared) 1 0 lg b 0 k 0 0))).
  assert (forall k, (k < 2)%nat -> pr (e k) = if Nat.eqb k 0 then 2 * a / (4/5) else (1 - a) / (1/5)) as Ee.
  { intros j Hj. unfold e. rewrite pr_lse.
    rewrite (bsum_ext 3 _ (fun b => (if Nat.eqb j 0 then a else 1 - a) * leafp b j / (if Nat.eqb b 2 then 1/5 else 4/5))).
    - cbn [bsum leafp Nat.eqb]. unfold leafp. cbn [Nat.eqb]. destruct j as [|[|j]]; [|  |lia]; cbn [Nat.eqb]; field.
    - intros b Hb. rewrite pr_ladd, Eg, S_grads_ok by assumption. rewrite pr_lfrom by lra.
      unfold resp_now. change (at_ (circuits shared) 1) with (MSum (MLeaf two_unif) 1 1 w_lg).
      change (at_ (circuits shared) 0) with (MLeaf two_unif).
      rewrite pr_lsub by (rewrite S_prob by assumption; destruct (Nat.eqb b 2); lra).
      rewrite S_prob by assumption. rewrite pr_ladd, leafp_ok. cbn [pr]. change (channels (out_shape (MLeaf two_unif))) with 2%nat.
      rewrite exp_log_softmax by lia. destruct j as [|[|j]]; [rewrite E0|rewrite E1|lia]; cbn [Nat.eqb]; destruct (Nat.eqb b 2); field. }
  change (exp (finval (lsub (e k) (lse 2 e))) = let n0 := 2 * a / (4/5) in let n1 := (1 - a) / (1/5) in (if Nat.eqb k 0 then n0 else n1) / (n0 + n1)).
  assert (pr (lse 2 e) = 2 * a / (4/5) + (1 - a) / (1/5)) as Es.
  { rewrite pr_lse. cbn [bsum]. rewrite !Ee by lia. cbn [Nat.eqb]. lra. }
  assert (0 < pr (lse 2 e)) as Hs by (rewrite Es; lra).
  assert (0 < pr (lsub (e k) (lse 2 e))) as Hp.
  { rewrite pr_lsub by assumption. apply Rdiv_lt_0_compat; [|assumption]. rewrite Ee by assumption. destruct (Nat.eqb k 0); lra. }
  rewrite finval_pos by assumption. rewrite exp_ln by assumption. rewrite pr_lsub by assumption. rewrite Es, Ee by assumption. reflexivity.
Qed.

Lemma softmax_of_exp lg k : exp (lg 0%nat) + exp (lg 1%nat) = 1 -> (k < 2)%nat -> softmax 2 lg k = exp (lg k).
Proof. intros H Hk. unfold softmax. cbn [bsum]. replace (0 + exp (lg 0%nat) + exp (lg 1%nat)) with 1 by lra. unfold Rdiv. now rewrite Rinv_1, Rmult_1_r. Qed.

Lemma acc_shared lg lr : acc_ll (shared_c lg lr) shared_x 3 =
  bsum 3 (fun b => finval (loglik (shared_c lg lr) (shared_x b) 0 0 0)).
Proof. unfold acc_ll. apply bsum_ext. intros b _. cbn [shared_c out_shape features channels map nsum hd_shape hd ll_reps Nat.eqb bsum two_unif l_scope query length l_rep]. cbn. lra. Qed.

Lemma shared_all :
  (forall b, (b < 3)%nat -> loglik (last (circuits shared) no_module) (shared_x b) 0 0 0 <> NInf) /\
  (forall b, (b < 3)%nat -> loglik (last (circuits (em_update_dag shared shared_x 3)) no_module) (shared_x b) 0 0 0 <> NInf) /\
  acc_ll (last (circuits (em_update_dag shared shared_x 3)) no_module) shared_x 3
  < acc_ll (last (circuits shared) no_module) shared_x 3.
Proof.
  set (gs := backward shared_x (circuits shared) shared 4 (fun j => if Nat.eqb j 3 then (fun _ _ _ _ => 1) else (fun _ _ _ _ => 0))).
  set (lg1 := new_log_weights shared_x 3 (circuits shared) gs 1 0 w_lg).
  set (lg2 := new_log_weights shared_x 3 (circuits shared) gs 1 0 lg1).
  set (lr := new_log_weights shared_x 3 (circuits shared) gs 3 2 (fun _ _ _ _ => 0)).
  assert (gs 1%nat = S_grads) as Eg by reflexivity.
  assert (last (circuits (em_update_dag shared shared_x 3)) no_module = shared_c lg2 lr) as -> by reflexivity.
  assert (last (circuits shared) no_module = shared_c w_lg (fun _ _ _ _ => 0)) as -> by reflexivity.
  destruct softmax_w as [W0 W1].
  assert (forall k, (k < 2)%nat -> exp (lg1 0%nat k 0%nat 0%nat) = if Nat.eqb k 0 then 2/3 else 1/3) as E1.
  { intros k Hk. unfold lg1. rewrite (new_S gs w_lg (4/5)); auto; try lra. destruct (Nat.eqb k 0); lra. }
  assert (softmax 2 (fun i => lg1 0%nat i 0%nat 0%nat) 0 = 2/3) as L0.
  { rewrite softmax_of_exp by (rewrite ?E1 by lia; cbn [Nat.eqb]; try lra; lia). now rewrite E1 by lia. }
  assert (softmax 2 (fun i => lg1 0%nat i 0%nat 0%nat) 1 = 1 - 2/3) as L1.
  { rewrite softmax_of_exp by (rewrite ?E1 by lia; cbn [Nat.eqb]; try lra; lia). rewrite E1 by lia. cbn [Nat.eqb]. lra. }
  assert (forall k, (k < 2)%nat -> exp (lg2 0%nat k 0%nat 0%nat) = 1/2) as E2.
  { intros k Hk. unfold lg2. rewrite (new_S gs lg1 (2/3)); auto; try lra. destruct (Nat.eqb k 0); lra. }
  assert (forall k, (k < 2)%nat -> softmax 2 (fun i => lg2 0%nat i 0%nat 0%nat) k = 1/2) as L2.
  { intros k Hk. rewrite softmax_of_exp by (rewrite ?E2 by lia; try lra; lia). auto. }
  assert (forall b, (b < 3)%nat -> pr (loglik (shared_c lg2 lr) (shared_x b) 0 0 0) = 1/2) as PA.
  { intros b Hb. rewrite shared_p, sum_leaf, !L2 by lia. unfold leafp. destruct (Nat.eqb b 2); cbn [Nat.eqb]; lra. }
  assert (forall b, (b < 3)%nat -> pr (loglik (shared_c w_lg (fun _ _ _ _ => 0)) (shared_x b) 0 0 0) = if Nat.eqb b 2 then 1/5 else 4/5) as PB.
  { intros b Hb. rewrite shared_p. now apply S_prob. }
  split; [|split].
  { intros b Hb E. pose proof (PB b Hb) as Q. rewrite E in Q. cbn in Q. destruct (Nat.eqb b 2); lra. }
  { intros b Hb E. pose proof (PA b Hb) as Q. rewrite E in Q. cbn in Q. lra. }
  rewrite !acc_shared.
  cbn [bsum]. rewrite !finval_pos by (rewrite ?PA, ?PB by lia; cbn [Nat.eqb]; lra). rewrite !PA, !PB by lia. cbn [Nat.eqb].
  rewrite !Rplus_0_l. rewrite <- !ln_mult by lra. apply ln_increasing; lra.
Qed.
Lemma shared_finite b : (b < 3)%nat -> loglik (last (circuits shared) no_module) (shared_x b) 0 0 0 <> NInf.
Proof. apply shared_all. Qed.
Lemma shared_finite' b : (b < 3)%nat -> loglik (last (circuits (em_update_dag shared shared_x 3)) no_module) (shared_x b) 0 0 0 <> NInf.
Proof. apply shared_all. Qed.
Lemma shared_decreases :
  acc_ll (last (circuits (em_update_dag shared shared_x 3)) no_module) shared_x 3
  < acc_ll (last (circuits shared) no_module) shared_x 3.
Proof. apply shared_all. Qed.
