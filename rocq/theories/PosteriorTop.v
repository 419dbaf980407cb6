(** RatSPN sampling: unconditional draws and a counterexample with evidence. *)
From Coq Require Import List Arith Bool Reals Lra Lia FunctionalExtensionality.
From Verif Require Import Base ScopeModel ScopeProofs CircuitModel CircuitSpec CircuitBasics CircuitEval Integral CircuitMarg MargModel MargProofs CircuitProps CircuitExamples SampleModel SampleSpec SampleExp SampleProofs SampleTop SampleApi SampleKeep SampleExamples PosteriorModel PosteriorProofs.
Import ListNotations.
Local Open Scope R_scope.

Lemma rat_unconditional (dom : nat -> list R) W inputs lg s : (forall v, NoDup (dom v)) ->
  features (out_shape inputs) = 1%nat -> built (class_root inputs lg) -> aligned (class_root inputs lg) ->
  ll_shape (class_root inputs lg) = Ok s -> (0 < repetitions s)%nat ->
  (forall v, vars (class_root inputs lg) v -> (v < W)%nat) ->
  forall x vs y, (forall v, vars (class_root inputs lg) v -> x v = None) -> NoDup vs -> (forall v, In v vs <-> vars (class_root inputs lg) v) ->
  (forall v, In v vs -> exists b, y v = Some b /\ In b (dom v)) -> (forall v, ~ In v vs -> y v = x v) ->
  expects (fun v => DFin (dom v)) (rat_sample false W None inputs lg x) (tests (point y) vs)
    (prob (class_root inputs lg) y 0 0 0).
Proof.
  intros ND HF B A L Hr HW x vs y Hx NDv Hvs Hy Hn. rewrite rat_sample_root by assumption.
  rewrite <- (joint_one (class_root inputs lg)) by exact HF. eapply c09_fin; eauto.
Qed.

(** two classes over variables 0 and 2, each a mixture of two products of Bernoullis *)
Definition rw : wtensor := mkW 1 2 2 1 (fun _ i o _ => if Nat.eqb i o then 3/4 else 1/4).
Definition ratI : module := MSum (MProduct exA) 2 1 (fun f i o r => ln (wv rw f i o r)).
Definition rlg : nat -> R := fun _ => 0.
Lemma ratI_built : built ratI.
Proof.
  apply (b_sum_w (MProduct exA) 1 1 (W4 rw)); [apply exP_built|].
  apply (mk_sum_w_intro (MProduct exA) rw); cbn; try lia.
  - intros f i o r _ _ _ _. destruct (Nat.eqb i o); lra.
  - intros f o r _ Ho _. assert (o = 0 \/ o = 1)%nat as [-> | ->] by lia; cbn; lra.
Qed.

Lemma ratR_built : built (class_root ratI rlg).
Proof.
  eapply b_log_weights. eapply (b_sum_w ratI 1 1 (W4 (mkW 1 2 1 1 (fun _ _ _ _ => 1/2)))); [apply ratI_built|].
  apply (mk_sum_w_intro ratI (mkW 1 2 1 1 (fun _ _ _ _ => 1/2))); cbn; try lia; intros; lra.
Qed.
Definition pv (i : nat) : R := if Nat.eqb i 0 then 1/4 else 1/2.
Lemma prodA_e1 i : (i < 2)%nat -> prob (MProduct exA) e1 0 i 0 = pv i.
Proof.
  intros Hi. rewrite prob_pev, pev_product. change (features (out_shape exA)) with 2%nat. cbn [bprod].
  rewrite <- !prob_pev. rewrite exA_pr_one by reflexivity. rewrite exA_pr_nan by reflexivity.
  unfold pv. assert (i = 0 \/ i = 1)%nat as [-> | ->] by lia; cbn; lra.
Qed.
Lemma prodA_y1 i : (i < 2)%nat -> prob (MProduct exA) y1 0 i 0 = 1/8.
Proof.
  intros Hi. rewrite prob_pev, pev_product. change (features (out_shape exA)) with 2%nat. cbn [bprod].
  rewrite <- !prob_pev. rewrite !exA_pr_one by reflexivity.
  assert (i = 0 \/ i = 1)%nat as [-> | ->] by lia; cbn; lra.
Qed.
Lemma rw_softmax o i : (o < 2)%nat -> (i < 2)%nat -> softmax 2 (fun i => ln (wv rw 0 i o 0)) i = wv rw 0 i o 0.
Proof.
  intros Ho Hi. apply (softmax_ln 2 (fun i => wv rw 0 i o 0)); [assumption| |].
  - intros j _. cbn. destruct (Nat.eqb j o); lra.
  - assert (o = 0 \/ o = 1)%nat as [-> | ->] by lia; cbn; lra.
Qed.
Lemma ratI_prob x p o : (o < 2)%nat -> (forall i, (i < 2)%nat -> prob (MProduct exA) x 0 i 0 = p i) ->
  prob ratI x 0 o 0 = wv rw 0 0 o 0 * p 0%nat + wv rw 0 1 o 0 * p 1%nat.
Proof.
  intros Ho H. unfold ratI. rewrite prob_pev, pev_sum by (cbn; lia). change (channels (out_shape (MProduct exA))) with 2%nat.
  change (bidx (ll_reps (MProduct exA)) 0) with 0%nat. change (bidx 1 0) with 0%nat.
  rewrite (bsum_ext 2 _ (fun i => wv rw 0 i o 0 * p i)).
  - cbn [bsum]. ring.
  - intros i Hi. rewrite <- prob_pev, H, rw_softmax by assumption. reflexivity.
Qed.
Lemma ratR_prob x p : (forall o, (o < 2)%nat -> prob ratI x 0 o 0 = p o) ->
  prob (class_root ratI rlg) x 0 0 0 = (p 0%nat + p 1%nat) / 2.
Proof.
  intros H. rewrite root_prob by (cbn; lia). change (channels (out_shape ratI)) with 2%nat. cbn [bsum].
  rewrite !H by lia. unfold softmax, rlg. cbn [bsum]. rewrite exp_0. field.
Qed.
Lemma ratR_e1 : prob (class_root ratI rlg) e1 0 0 0 = 3/8.
Proof.
  rewrite (ratR_prob e1 (fun o => wv rw 0 0 o 0 * pv 0 + wv rw 0 1 o 0 * pv 1)); [cbn; lra|].
  intros o Ho. apply (ratI_prob e1 pv); [assumption|]. apply prodA_e1.
Qed.
Lemma ratR_y1 : prob (class_root ratI rlg) y1 0 0 0 = 1/8.
Proof.
  rewrite (ratR_prob y1 (fun o => wv rw 0 0 o 0 * (1/8) + wv rw 0 1 o 0 * (1/8))); [cbn; lra|].
  intros o Ho. apply (ratI_prob y1 (fun _ => 1/8)); [assumption|]. apply prodA_y1.
Qed.
Lemma leafA_draw ev i : (i < 2)%nat ->
  expects (fun _ => bits) (sample_m false 3 ev (MProduct exA) (mkCtx [i] [true] 0) e1) (tests (point y1) [2]%nat)
      (if Nat.eqb 1 i then 1/4 else 1/2).
Proof.
  intros Hi. assert (i = 0 \/ i = 1)%nat as [-> | ->] by lia; cbn;
    (exists (fun a => if Req_EM_T a 1 then 1 else 0); split; [intros a; unfold tests, point; cbn; destruct (Req_EM_T a 1); ring|]);
    cbn; rewrite pr_bern_0, pr_bern_1 by lra; destruct (Req_EM_T 0 1); destruct (Req_EM_T 1 1); lra.
Qed.
Lemma class_draw o : (o < 2)%nat ->
  expects (fun _ => bits) (sample_m false 3 (Some e1) ratI (mkCtx [o] [true] 0) e1) (tests (point y1) [2]%nat)
    (if Nat.eqb o 0 then 2/5 else 2/7).
Proof.
  intros Ho. unfold ratI. cbn [sample_m]. change (features (out_shape (MProduct exA))) with 1%nat.
  replace (validate [1; 1]%nat 2 1 (mkCtx [o] [true] 0)) with true
    by (assert (o = 0 \/ o = 1)%nat as [-> | ->] by lia; reflexivity). cbv iota.
  change (broadcast 1 (mkCtx [o] [true] 0)) with (Ok (mkCtx [o] [true] 0)). cbv iota beta.
  cbn [c_ci c_mask c_rep choose_channels]. unfold sum_pick.
  replace (Nat.ltb o 2 && Nat.ltb 0 1)%bool with true
    by (assert (o = 0 \/ o = 1)%nat as [-> | ->] by lia; reflexivity). cbv iota.
  change (Nat.ltb 0 (ll_reps (MProduct exA))) with true. cbv iota. change (channels (out_shape (MProduct exA))) with 2%nat.
  set (g := fun i => ladd (Fin (ln (wv rw 0 i o 0))) (loglik (MProduct exA) e1 0 i 0)).
  assert (forall i, (i < 2)%nat -> pr (g i) = wv rw 0 i o 0 * pv i) as Eg.
  { intros i Hi. unfold g. rewrite pr_ladd. cbn [pr]. rewrite exp_ln by (cbn; destruct (Nat.eqb i o); lra).
    f_equal. now apply prodA_e1. }
  assert (bsum 2 (fun i => pr (g i)) = if Nat.eqb o 0 then 5/16 else 7/16) as EZ.
  { cbn [bsum]. rewrite !Eg by lia. assert (o = 0 \/ o = 1)%nat as [-> | ->] by lia; cbn; lra. }
  rewrite sample_logits_pos by (rewrite EZ; destruct (Nat.eqb o 0); lra). cbn [pbind expects].
  exists (fun i => if Nat.eqb 1 i then 1/4 else 1/2). split.
  - intros i Hi _. now apply leafA_draw.
  - cbn [bsum] in *. rewrite EZ, !Eg by lia. assert (o = 0 \/ o = 1)%nat as [-> | ->] by lia; cbn; lra.
Qed.
Lemma rat_conditional_draw :
  expects (fun _ => bits) (rat_sample_with_evidence false 3 ratI rlg e1) (tests (point y1) [2]%nat) (12/35).
Proof.
  unfold rat_sample_with_evidence. change (ll_shape (class_root ratI rlg)) with (Ok (mkShape 1 1 1)). cbv iota.
  change (forallb (fun v => Nat.ltb v 3) (query (scope_of ratI))) with true. cbv iota. unfold rat_sample.
  change (channels (out_shape ratI)) with 2%nat.
  rewrite sample_logits_pos by (cbn; unfold rlg; rewrite exp_0; lra). cbn [pbind expects].
  exists (fun o => if Nat.eqb o 0 then 2/5 else 2/7). split.
  - intros o Ho _. now apply class_draw.
  - cbn. unfold rlg. rewrite exp_0. lra.
Qed.
