From Coq Require Import List Arith Bool Reals Lra Lia.
From Verif Require Import Base ScopeModel CircuitModel CircuitBasics CircuitEval CircuitMarg SampleModel SampleSpec SampleExp PosteriorModel.
Import ListNotations.
Local Open Scope R_scope.

Lemma lse_pos n f : 0 < bsum n (fun i => pr (f i)) -> lse n f = Fin (ln (bsum n (fun i => pr (f i)))).
Proof. intros H. unfold lse, lfrom. destruct (Rlt_dec _ _); [reflexivity|contradiction]. Qed.
Lemma lse_none n f : bsum n (fun i => pr (f i)) = 0 -> lse n f = NInf.
Proof. intros H. unfold lse, lfrom. rewrite H. destruct (Rlt_dec _ _); [lra|reflexivity]. Qed.

Section Bayes.
Variables (n : nat) (ll prior : nat -> lval).
Let Z := bsum n (fun j => pr (ll j) * pr (prior j)).
Lemma Z_eq : bsum n (fun j => pr (ladd (ll j) (prior j))) = Z.
Proof. apply bsum_ext. intros. apply pr_ladd. Qed.
Lemma posterior_pos c : 0 < Z -> exists v, log_posterior n ll prior c = Some v /\ pr v = pr (ll c) * pr (prior c) / Z.
Proof.
  intros H. unfold log_posterior. rewrite lse_pos; rewrite Z_eq; [|assumption].
  eexists. split; [reflexivity|]. rewrite !pr_ladd. cbn [pr]. rewrite exp_Ropp, exp_ln by assumption. reflexivity.
Qed.
Lemma posterior_zero c : Z = 0 -> log_posterior n ll prior c = None.
Proof. intros H. unfold log_posterior. rewrite lse_none; [reflexivity|]. now rewrite Z_eq. Qed.
Lemma posterior_sum : 0 < Z -> bsum n (fun c => match predict_proba n ll prior c with Some p => p | None => 0 end) = 1.
Proof.
  intros H. rewrite (bsum_ext n _ (fun c => pr (ll c) * pr (prior c) / Z)).
  - rewrite bsum_div. fold Z. field. lra.
  - intros c _. unfold predict_proba. destruct (posterior_pos c H) as (v & -> & E). cbn. exact E.
Qed.
End Bayes.

Lemma oargmax_max n (p : nat -> R) : (0 < n)%nat ->
  (oargmax n (fun c => Some (p c)) < n)%nat /\ forall c, (c < n)%nat -> p c <= p (oargmax n (fun c => Some (p c))).
Proof.
  induction n as [|k IH]; [lia|]. intros _. cbn [oargmax]. destruct (Nat.eqb_spec k 0) as [->|N].
  - split; [lia|]. intros c Hc. replace c with 0%nat by lia. lra.
  - destruct IH as [A B]; [lia|]. destruct (Rlt_dec _ _) as [L|L].
    + split; [lia|]. intros c Hc. assert (c = k \/ c < k)%nat as [-> | Hk] by lia; [lra|]. specialize (B c Hk). lra.
    + split; [lia|]. intros c Hc. assert (c = k \/ c < k)%nat as [-> | Hk] by lia; [lra|]. auto.
Qed.
Lemma oargmax_ext n g h : (forall c, (c < n)%nat -> g c = h c) -> oargmax n g = oargmax n h.
Proof.
  intros H. assert (oargmax n g = oargmax n h /\ ((0 < n)%nat -> (oargmax n h < n)%nat)) as [E _]; [|exact E].
  induction n as [|k IH]; [split; [reflexivity|lia]|]. cbn [oargmax].
  destruct IH as [IH1 IH2]; [intros; apply H; lia|]. destruct (Nat.eqb_spec k 0); [split; [reflexivity|lia]|].
  rewrite IH1. rewrite (H (oargmax k h)), (H k) by lia. split; [reflexivity|].
  intros _. specialize (IH2 ltac:(lia)). destruct (h (oargmax k h)); [|lia]. destruct (h k); [|lia]. destruct (Rlt_dec _ _); lia.
Qed.

(** classifiers *)
Section Classifier.
Variables (inputs : module) (lg : nat -> R) (x : row).
Let n := channels (out_shape inputs).

Lemma root_prob : (0 < n)%nat -> prob (class_root inputs lg) x 0 0 0 = bsum n (fun c => softmax n lg c * prob inputs x 0 c 0).
Proof.
  intros Hn. unfold class_root. rewrite prob_pev, pev_sum by (fold n; lia). fold n. apply bsum_ext. intros c Hc.
  unfold bidx. destruct (Nat.eqb _ _); rewrite prob_pev; reflexivity.
Qed.
Lemma root_Z : (0 < n)%nat ->
  bsum n (fun j => pr (loglik inputs x 0 j 0) * pr (Fin (log_softmax n lg j))) = prob (class_root inputs lg) x 0 0 0.
Proof.
  intros Hn. rewrite root_prob by assumption. apply bsum_ext. intros c Hc. cbn [pr]. rewrite exp_log_softmax by assumption.
  unfold prob. ring.
Qed.

Lemma class_posterior : (2 <= n)%nat -> 0 < prob (class_root inputs lg) x 0 0 0 ->
  exists p, class_predict_proba inputs lg x = Ok p /\
    (forall c, (c < n)%nat -> p c = Some (softmax n lg c * prob inputs x 0 c 0 / prob (class_root inputs lg) x 0 0 0)).
Proof.
  intros Hn HZ. unfold class_predict_proba, class_log_posterior. fold n.
  destruct (Nat.leb_spec n 1) as [L|_]; [lia|]. cbn [bind]. eexists. split; [reflexivity|].
  intros c Hc. cbn beta.
  destruct (posterior_pos n (fun c => loglik inputs x 0 c 0) (fun c => Fin (log_softmax n lg c)) c) as (v & -> & E).
  - rewrite root_Z by lia. assumption.
  - cbn [option_map]. f_equal. rewrite E, root_Z by lia. cbn [pr]. rewrite exp_log_softmax by lia. unfold prob. f_equal. ring.
Qed.
Lemma class_posterior_zero : (2 <= n)%nat -> prob (class_root inputs lg) x 0 0 0 = 0 ->
  exists p, class_predict_proba inputs lg x = Ok p /\ forall c, (c < n)%nat -> p c = None.
Proof.
  intros Hn HZ. unfold class_predict_proba, class_log_posterior. fold n.
  destruct (Nat.leb_spec n 1) as [L|_]; [lia|]. cbn [bind]. eexists. split; [reflexivity|].
  intros c Hc. cbn beta. rewrite posterior_zero; [reflexivity|]. rewrite root_Z by lia. assumption.
Qed.
Lemma class_single : (n <= 1)%nat -> class_predict_proba inputs lg x = Err.
Proof. intros H. unfold class_predict_proba, class_log_posterior. fold n. destruct (Nat.leb_spec n 1) as [L|L]; [reflexivity|lia]. Qed.

Lemma class_sum : (2 <= n)%nat -> 0 < prob (class_root inputs lg) x 0 0 0 ->
  bsum n (fun c => softmax n lg c * prob inputs x 0 c 0 / prob (class_root inputs lg) x 0 0 0) = 1.
Proof. intros Hn HZ. rewrite bsum_div, <- root_prob by lia. field. lra. Qed.

Lemma class_predict_max : (2 <= n)%nat -> 0 < prob (class_root inputs lg) x 0 0 0 ->
  exists k, class_predict inputs lg x = Ok k /\ (k < n)%nat /\
    forall c, (c < n)%nat -> softmax n lg c * prob inputs x 0 c 0 <= softmax n lg k * prob inputs x 0 k 0.
Proof.
  intros Hn HZ. destruct (class_posterior Hn HZ) as (p & E & Hp). unfold class_predict. rewrite E. cbn [bind]. fold n.
  eexists. split; [reflexivity|].
  rewrite (oargmax_ext n p (fun c => Some (softmax n lg c * prob inputs x 0 c 0 / prob (class_root inputs lg) x 0 0 0))) by exact Hp.
  destruct (oargmax_max n (fun c => softmax n lg c * prob inputs x 0 c 0 / prob (class_root inputs lg) x 0 0 0)) as [A B]; [lia|].
  split; [exact A|]. intros c Hc. specialize (B c Hc). unfold Rdiv in B. apply Rmult_le_reg_r in B; [exact B|].
  now apply Rinv_0_lt_compat.
Qed.
End Classifier.

(** drawing the class first is what sampling the root sum does, when no evidence is cached *)
Lemma rat_sample_root mpe W inputs lg x : features (out_shape inputs) = 1%nat ->
  rat_sample mpe W None inputs lg x = sample mpe W (class_root inputs lg) x.
Proof.
  intros HF. unfold sample, class_root, init_ctx, rat_sample. cbn [sample_m]. rewrite HF.
  cbn [validate].
  change (validate [1; 1]%nat 1 1 (mkCtx [0%nat] [true] 0)) with true. cbv iota.
  change (broadcast 1 (mkCtx [0%nat] [true] 0)) with (Ok (mkCtx [0%nat] [true] 0)). cbv iota beta.
  cbn [c_ci c_mask c_rep choose_channels]. unfold sum_pick. change (Nat.ltb 0 1 && Nat.ltb 0 1)%bool with true. cbv iota.
  destruct mpe; cbn [sample_logits]; [reflexivity|].
  unfold sample_logits. destruct (Rlt_dec _ _); reflexivity.
Qed.

(** naive Bayes priors *)
Lemma nb_prior_spec n p : (0 < n)%nat ->
  ((exists w, nb_prior n p = Ok w) <-> match p with None => True | Some q => forall c, (c < n)%nat -> 0 < q c end) /\
  forall w, nb_prior n p = Ok w -> (forall c, (c < n)%nat -> 0 < w c) /\ bsum n w = 1 /\
    match p with None => forall c, w c = / INR n | Some q => forall c, w c = q c / bsum n q end.
Proof.
  intros Hn. destruct p as [q|]; unfold nb_prior.
  - destruct (allb n (fun c => negb (rle (q c) 0))) eqn:E.
    + assert (forall c, (c < n)%nat -> 0 < q c) as P.
      { intros c Hc. unfold allb in E. rewrite forallb_forall in E. specialize (E c). rewrite in_seq in E. specialize (E ltac:(lia)).
        unfold rle in E. destruct (Rle_dec (q c) 0); [discriminate|lra]. }
      assert (0 < bsum n q) as PS by (apply bsum_pos; auto).
      split; [split; [auto|intros _; eexists; reflexivity]|]. intros w H. injection H as <-. split; [|split].
      * intros c Hc. apply Rdiv_lt_0_compat; auto.
      * rewrite bsum_div. field. lra.
      * reflexivity.
    + split; [|intros w H; discriminate H]. split; [intros [w H]; discriminate H|]. intros P. exfalso.
      assert (allb n (fun c => negb (rle (q c) 0)) = true); [|congruence].
      unfold allb. apply forallb_forall. intros c Hc. apply in_seq in Hc. unfold rle. destruct (Rle_dec (q c) 0); [|reflexivity].
      specialize (P c ltac:(lia)). lra.
  - assert (0 < INR n) by (apply lt_0_INR; lia). split; [split; [auto|intros _; eexists; reflexivity]|].
    intros w H1. injection H1 as <-. split; [|split].
    + intros c Hc. apply Rdiv_lt_0_compat; lra.
    + rewrite bsum_const. field. lra.
    + intros c. unfold Rdiv. ring.
Qed.
Lemma nb_empirical_spec eps n ys : (0 < n)%nat -> 0 < eps ->
  (forall c, (c < n)%nat -> 0 < nb_empirical eps n ys c) /\ bsum n (nb_empirical eps n ys) = 1.
Proof.
  intros Hn He. assert (forall c, 0 < INR (count_of c ys) + eps) as P by (intros c; pose proof (pos_INR (count_of c ys)); lra).
  assert (0 < bsum n (fun j => INR (count_of j ys) + eps)) as PS by (apply bsum_pos; auto).
  split; [intros c _; apply Rdiv_lt_0_compat; auto|]. unfold nb_empirical. rewrite bsum_div. field. lra.
Qed.
Lemma counts_total n ys : Forall (fun y => (y < n)%nat) ys -> bsum n (fun c => INR (count_of c ys)) = INR (length ys).
Proof.
  induction ys as [|y ys IH]; intros H; [apply bsum_zero; reflexivity|]. inversion H as [|? ? Hy Hl]; subst.
  cbn [length]. rewrite S_INR, <- IH by assumption.
  rewrite (bsum_ext n _ (fun c => INR (count_of c ys) + (if Nat.eqb c y then 1 else 0))).
  - rewrite bsum_plus. f_equal. rewrite (bsum_single n _ y); auto; [now rewrite Nat.eqb_refl|].
    intros i Hi N. apply Nat.eqb_neq in N. now rewrite N.
  - intros c _. unfold count_of. cbn [filter]. destruct (Nat.eqb c y); cbn [length]; [rewrite S_INR; lra|lra].
Qed.
