(** The measures of MeasureModel.v as functionals of the circuit's marginals. *)
From Coq Require Import List Arith Bool Lia Lra FunctionalExtensionality Permutation.
From Verif Require Import Base ScopeModel ScopeProofs CircuitModel CircuitSpec CircuitBasics CircuitEval Integral CircuitMarg CircuitProps MeasureModel MeasureProofs.
Import ListNotations.
Local Open Scope R_scope.

(** an aggregation that averages: logmeanexp, first, or nothing to aggregate *)
Definition averages (a : agg) (n : nat) : Prop := n = 1%nat \/ a <> LogSumExp.

Lemma reduce_avg a n : (0 < n)%nat ->
  exists w : nat -> R, (forall i, (i < n)%nat -> 0 <= w i) /\ (averages a n -> bsum n w = 1) /\ forall t, pr (reduce_over a n t) = bsum n (fun i => w i * pr (t i)).
Proof.
  intros Hn.
  assert (F : exists w : nat -> R, (forall i, (i < n)%nat -> 0 <= w i) /\ (averages a n -> bsum n w = 1) /\ forall t : nat -> lval, pr (t 0%nat) = bsum n (fun i => w i * pr (t i))).
  { exists (fun i => if Nat.eqb i 0 then 1 else 0). split; [intros i _; destruct (Nat.eqb i 0); lra|]. split.
    - intros _. rewrite (bsum_single n _ 0%nat Hn); [reflexivity|]. intros i Hi N. destruct (Nat.eqb_spec i 0); [congruence|reflexivity].
    - intros t. rewrite (bsum_single n _ 0%nat Hn); [cbn; ring|]. intros i Hi N. destruct (Nat.eqb_spec i 0); [congruence|ring]. }
  unfold reduce_over. destruct (Nat.eqb_spec n 1) as [->|N1]; [exact F|]. destruct a; [exact F| |].
  { exists (fun _ => 1). split; [intros; lra|]. split; [intros [?|?]; congruence|]. intros t. rewrite pr_lse. apply bsum_ext. intros. ring. }
  assert (0 < INR n) by now apply lt_0_INR. exists (fun _ => / INR n). split; [intros; left; now apply Rinv_0_lt_compat|]. split; [intros _; rewrite bsum_const; field; lra|].
  intros t. rewrite pr_ladd, pr_lse. cbn [pr]. rewrite exp_Ropp, exp_ln by assumption. rewrite Rmult_comm, <- bsum_scal. reflexivity.
Qed.

(** the probability [reduce_log_likelihood] reports for a (partial) row *)
Definition marg (ca ra : agg) (m : module) (s : shape) (x : row) : R := pr (reduce_ll ca ra s (loglik m x)).

Section M.
Variables (ca ra : agg) (m : module) (s : shape).
Hypothesis B : built m.
Hypothesis L : ll_shape m = Ok s.
Hypothesis RP : (0 < repetitions s)%nat.

Lemma mshape : features s = features (out_shape m) /\ channels s = channels (out_shape m) /\ (0 < channels s)%nat.
Proof.
  destruct (ll_shape_spec m s (built_wf m B) L) as (E1 & E2 & E3). repeat split; auto. rewrite E2. apply (wf_cpos m (wf_wf1 m (built_wf m B))).
Qed.
Lemma mpos c r : (c < channels s)%nat -> (r < repetitions s)%nat -> pos (MProduct m) 0 c r.
Proof.
  intros Hc Hr. assert (ll_shape (MProduct m) = Ok (mkShape 1 (channels s) (repetitions s))) as E by (cbn [ll_shape]; rewrite L; reflexivity).
  apply (in_shape_pos (MProduct m) (mkShape 1 (channels s) (repetitions s))); [exact (built_wf m B)|exact E|]. split; [cbn; lia|]. split; assumption.
Qed.
Lemma marg_rep : exists w : nat -> nat -> R, (forall c r, (c < channels s)%nat -> (r < repetitions s)%nat -> 0 <= w c r) /\
  (averages ca (channels s) -> averages ra (repetitions s) -> bsum (channels s) (fun c => bsum (repetitions s) (w c)) = 1) /\
  forall x, marg ca ra m s x = bsum (channels s) (fun c => bsum (repetitions s) (fun r => w c r * prob (MProduct m) x 0 c r)).
Proof.
  destruct mshape as (E1 & E2 & CP).
  destruct (reduce_avg ca (channels s) CP) as (wc & C1 & C2 & C3). destruct (reduce_avg ra (repetitions s) RP) as (wr & R1 & R2 & R3).
  exists (fun c r => wc c * wr r). split; [intros c r Hc Hr; apply Rmult_le_pos; auto|]. split.
  - intros AC AR. rewrite (bsum_ext _ _ wc); [now apply C2|]. intros c _. rewrite bsum_scal, R2 by exact AR. ring.
  - intros x. unfold marg, reduce_ll. rewrite C3. apply bsum_ext. intros c _. rewrite R3, <- bsum_scal. apply bsum_ext. intros r _.
    rewrite Rmult_assoc. f_equal. f_equal. rewrite prob_pev, pev_product, pr_ladds, E1. reflexivity.
Qed.

Lemma marg_nonneg x : 0 <= marg ca ra m s x.
Proof. apply pr_nonneg. Qed.

Lemma vars_product v : vars m v <-> In v (nthq (MProduct m) 0).
Proof. unfold vars. rewrite (nthq_product m v (built_wf m B)). apply (wf_union m (wf_wf1 m (built_wf m B))). Qed.

Hypothesis A : aligned m.
Lemma marg_one : averages ca (channels s) -> averages ra (repetitions s) -> marg ca ra m s (fun _ => None) = 1.
Proof.
  destruct marg_rep as (w & W1 & W2 & W3). intros AC AR. rewrite W3, <- W2 by assumption. apply bsum_ext. intros c Hc. apply bsum_ext. intros r Hr.
  rewrite (prob_all_nan (MProduct m) (built_wf m B) A 0 c r (mpos c r Hc Hr)); [ring|reflexivity].
Qed.
Lemma marg_local x y : (forall v, vars m v -> x v = y v) -> marg ca ra m s x = marg ca ra m s y.
Proof.
  intros H. destruct marg_rep as (w & W1 & W2 & W3). rewrite !W3. apply bsum_ext. intros c Hc. apply bsum_ext. intros r Hr. f_equal.
  apply (prob_local (MProduct m) (built_wf m B) A 0 c r (mpos c r Hc Hr)). intros v Hv. now apply H, vars_product.
Qed.

Variable D : nat -> domain.
Hypothesis N : leaves_norm D m.
Lemma marg_sum v k x : vars m v -> D v = DFin (map INR (seq 0 k)) ->
  bsum k (fun a => marg ca ra m s (upd x v (Some (INR a)))) = marg ca ra m s (upd x v None).
Proof.
  intros Hv HD. destruct marg_rep as (w & W1 & W2 & W3). rewrite W3, (bsum_ext _ _ _ (fun a _ => W3 (upd x v (Some (INR a))))).
  rewrite bsum_swap. apply bsum_ext. intros c Hc. rewrite bsum_swap. apply bsum_ext. intros r Hr. rewrite bsum_scal. f_equal.
  pose proof (marg1 D (MProduct m) (built_wf m B) A N 0 c r (mpos c r Hc Hr) x v (proj1 (vars_product v) Hv)) as M. rewrite HD in M. cbn [sums] in M.
  rewrite map_map, lsumR_seq in M. exact M.
Qed.
End M.

Lemma leaf_in_scope m : wf m -> forall l v, In l (leaves_of m) -> In v (query (l_scope l)) -> vars m v.
Proof.
  induction m as [l0|c co rr lg IH|d2 sc cs IH|c IH] using module_ind'; intros W l v Hl Hv.
  - destruct Hl as [<-|[]]. exact Hv.
  - cbn in W. apply (IH (proj1 W) l v Hl Hv).
  - rewrite leaves_cat in Hl. apply in_concat in Hl. destruct Hl as (ls & Hls & Hl). apply in_map_iff in Hls. destruct Hls as (c & <- & Hc).
    pose proof (wf_cat_children _ _ _ W) as WC. rewrite Forall_forall in WC, IH. specialize (IH c Hc (WC c Hc) l v Hl Hv).
    unfold vars. cbn [scope_of]. cbn [wf] in W. destruct W as (NE & _ & W). destruct d2.
    + destruct W as (_ & EQ & ->). destruct cs as [|c0 cs]; [destruct Hc|]. cbn [hd]. assert (scope_eqb (scope_of c) (scope_of c0) = true) as E by (apply EQ; [exact Hc|now left]).
      unfold scope_eqb, equal_query in E. apply andb_true_iff in E. destruct E as [E _]. apply (proj1 (set_eqb_spec _ _) E v). exact IH.
    + destruct W as (_ & _ & _ & U). apply U. eauto.
  - exact (IH W l v Hl Hv).
Qed.
