From Coq Require Import List Arith Bool Reals Lia Lra.
From Verif Require Import Base ScopeModel CircuitModel CircuitEval MargModel EmModel LayerModel FactorModel StackModel StackProofs RatMargModel.
Import ListNotations.
Local Open Scope R_scope.

Lemma assemble_ops s ops ls : assemble s ops = Ok ls -> map l_op ls = ops.
Proof.
  revert s ls. induction ops as [|o ops IH]; intros s ls E; cbn in E; [now injection E as <-|].
  destruct (decl o s) as [s'|]; [|discriminate]. cbn [bind] in E. destruct (assemble s' ops) as [r|] eqn:A; [|discriminate].
  cbn [bind] in E. injection E as <-. cbn. f_equal. exact (IH _ _ A).
Qed.
Lemma assemble_app s a b ls : assemble s (a ++ b) = Ok ls ->
  exists la lb, ls = la ++ lb /\ assemble s a = Ok la /\ assemble (top_shape s la) b = Ok lb.
Proof.
  revert s ls. induction a as [|o a IH]; intros s ls E; cbn [app] in E.
  - exists [], ls. split; [reflexivity|]. split; [reflexivity|]. exact E.
  - cbn in E. destruct (decl o s) as [s'|] eqn:D; [|discriminate]. cbn [bind] in E.
    destruct (assemble s' (a ++ b)) as [r|] eqn:A; [|discriminate]. cbn [bind] in E. injection E as <-.
    destruct (IH _ _ A) as (la & lb & -> & A1 & A2). exists (mkLay o s s' :: la), lb. split; [reflexivity|].
    split; [cbn; rewrite D; cbn [bind]; rewrite A1; reflexivity|].
    replace (top_shape s (mkLay o s s' :: la)) with (top_shape s' la); [exact A2|]. unfold top_shape. cbn [map l_out].
    destruct (map l_out la) eqn:Q; [reflexivity|]. cbn. destruct l as [|y l]; [reflexivity|].
    clear. revert y. induction l as [|z l IH]; intros y; [reflexivity|]. cbn in *. apply IH.
Qed.

(** the upper layers of a RatSPN *)
Lemma rat_top leaves c p d st : mk_rat leaves c p d = Ok st ->
  exists k n X, (1 <= ra_root c)%nat /\ exists s0, assemble s0 (X ++ [OProd (ra_outer c) k n;
    OSum (ra_root c) (ra_reps c) (rp_sum p (ra_depth c - 1)); OMix (ra_root c) (ra_reps c) (rp_mix p)]
     ++ (if Nat.ltb 1 (ra_root c) then [OSum 1 1 (rp_root p)] else [])) = Ok (k_layers st) /\ s0 = fact_shape (k_fact st).
Proof.
  unfold mk_rat. destruct leaves as [|l0 lr]; [discriminate|].
  destruct (rat_mode c) as [[k n]|]; [|discriminate]. cbn [bind fst snd].
  destruct (join_all _) as [sc|]; [|discriminate]. cbn [bind].
  destruct (Nat.ltb_spec (ra_root c) 1) as [|Hr]; [discriminate|]. destruct (Nat.ltb (ra_region c) 1); [discriminate|].
  destruct (Nat.ltb _ 1); [discriminate|]. destruct (Nat.ltb (ra_splits c) 2); [discriminate|].
  destruct (factorize_leaves _ _ _ _) as [[mm fm]|]; [|discriminate]. cbn [bind fst snd].
  unfold rat_ops. destruct (Nat.eqb_spec (ra_depth c) 0) as [|Hd]; [discriminate|]. cbn [bind].
  destruct (assemble _ _) as [ls|] eqn:A; [|discriminate]. cbn [bind]. intros E. injection E as <-.
  exists k, n, (flat_map (rat_level c p k n) (seq 0 (ra_depth c - 1))). split; [exact Hr|]. exists (fact_shape fm). cbn [k_layers k_fact]. split; [|reflexivity].
  rewrite <- A. f_equal. replace (ra_depth c) with (S (ra_depth c - 1)) at 3 by lia. rewrite seq_S, flat_map_app.
  cbn [flat_map app plus]. rewrite app_nil_r. rewrite <- !app_assoc. f_equal. unfold rat_level. cbn [app]. f_equal. f_equal.
  destruct (Nat.eqb_spec (ra_depth c - 1) 0) as [E|E]; [|now rewrite Nat.eqb_refl].
  now replace (ra_depth c) with 1%nat by lia.
Qed.

Lemma marg_raise leaves c p d st V : mk_rat leaves c p d = Ok st ->
  touches V (scope_of (k_leaf st)) = true -> covers V (scope_of (k_leaf st)) = false -> rat_marg V st = MRaise.
Proof.
  intros E T C. destruct (rat_top _ _ _ _ _ E) as (k & n & X & _ & s0 & A & _). apply assemble_ops in A.
  assert (Q : map l_op (rev (k_layers st)) = (if Nat.ltb 1 (ra_root c) then [OSum 1 1 (rp_root p)] else []) ++
    [OMix (ra_root c) (ra_reps c) (rp_mix p); OSum (ra_root c) (ra_reps c) (rp_sum p (ra_depth c - 1)); OProd (ra_outer c) k n] ++ rev X).
  { rewrite map_rev, A. rewrite !rev_app_distr. rewrite <- app_assoc. f_equal. now destruct (Nat.ltb 1 (ra_root c)). }
  unfold rat_marg. revert Q. generalize (rev (k_layers st)) as ls. intros ls Q.
  assert (G : forall ls', map l_op ls' = [OMix (ra_root c) (ra_reps c) (rp_mix p); OSum (ra_root c) (ra_reps c) (rp_sum p (ra_depth c - 1)); OProd (ra_outer c) k n] ++ rev X ->
     marg_layers V (scope_of (k_leaf st)) ls' = MRaise).
  { intros [|a [|b [|e r]]] H; cbn in H; try discriminate. injection H as Ha Hb He _. cbn [marg_layers]. now rewrite Ha, C, T, Hb, He. }
  destruct (Nat.ltb 1 (ra_root c)); [|exact (G ls Q)].
  destruct ls as [|a r]; [discriminate|]. cbn [map app] in Q. injection Q as Ha Hr. cbn [marg_layers]. now rewrite Ha, C, T, (G r Hr).
Qed.

Lemma marg_gone leaves c p d st V : mk_rat leaves c p d = Ok st ->
  covers V (scope_of (k_leaf st)) = true -> rat_marg V st = MGone.
Proof.
  intros E C. destruct (rat_top _ _ _ _ _ E) as (k & n & X & _ & s0 & A & _). apply assemble_ops in A.
  unfold rat_marg. assert (Q : map l_op (rev (k_layers st)) = rev (X ++ [OProd (ra_outer c) k n;
    OSum (ra_root c) (ra_reps c) (rp_sum p (ra_depth c - 1)); OMix (ra_root c) (ra_reps c) (rp_mix p)] ++ (if Nat.ltb 1 (ra_root c) then [OSum 1 1 (rp_root p)] else [])))
    by now rewrite map_rev, A.
  rewrite !rev_app_distr in Q. destruct (rev (k_layers st)) as [|a r]; [now destruct (Nat.ltb 1 (ra_root c))|].
  destruct (Nat.ltb 1 (ra_root c)); cbn in Q; injection Q as Ha _; cbn [marg_layers]; now rewrite Ha, C.
Qed.

(** the top layer with its input's shape *)
Lemma rat_last leaves c p d st : mk_rat leaves c p d = Ok st ->
  exists la s o, k_layers st = la ++ [mkLay o s (stack_shape st)] /\ decl o s = Ok (stack_shape st) /\ channels s = ra_root c /\
    o = (if Nat.ltb 1 (ra_root c) then OSum 1 1 (rp_root p) else OMix (ra_root c) (ra_reps c) (rp_mix p)).
Proof.
  intros E. destruct (rat_top _ _ _ _ _ E) as (k & n & X & Hr & s0 & A & ->).
  unfold stack_shape, top_shape.
  destruct (Nat.ltb 1 (ra_root c)).
  - rewrite app_assoc in A. destruct (assemble_app _ _ _ _ A) as (la & lb & Q & A1 & A2). rewrite Q.
    cbn in A2. injection A2 as <-. exists la. eexists. eexists. rewrite map_app. cbn [map l_out]. rewrite last_last.
    split; [reflexivity|]. split; [reflexivity|]. split; [|reflexivity]. clear - A1.
    change ([OProd (ra_outer c) k n; OSum (ra_root c) (ra_reps c) (rp_sum p (ra_depth c - 1)); OMix (ra_root c) (ra_reps c) (rp_mix p)])
      with ([OProd (ra_outer c) k n; OSum (ra_root c) (ra_reps c) (rp_sum p (ra_depth c - 1))] ++ [OMix (ra_root c) (ra_reps c) (rp_mix p)]) in A1.
    rewrite app_assoc in A1. destruct (assemble_app _ _ _ _ A1) as (l1 & l2 & -> & _ & A2). cbn in A2.
    destruct (Nat.ltb (ra_root c) 1); [discriminate|]. destruct (negb _); [discriminate|]. cbn [bind] in A2. injection A2 as <-.
    unfold top_shape. rewrite map_app. cbn [map l_out]. rewrite last_last. reflexivity.
  - rewrite app_nil_r in A.
    change ([OProd (ra_outer c) k n; OSum (ra_root c) (ra_reps c) (rp_sum p (ra_depth c - 1)); OMix (ra_root c) (ra_reps c) (rp_mix p)])
      with ([OProd (ra_outer c) k n; OSum (ra_root c) (ra_reps c) (rp_sum p (ra_depth c - 1))] ++ [OMix (ra_root c) (ra_reps c) (rp_mix p)]) in A.
    rewrite app_assoc in A. destruct (assemble_app _ _ _ _ A) as (la & lb & Q & A1 & A2). rewrite Q. clear Q A A1.
    cbn in A2. destruct (Nat.ltb (ra_root c) 1) eqn:E1; [discriminate|]. destruct (negb _) eqn:E2; [discriminate|]. cbn [bind] in A2. injection A2 as <-.
    exists la. eexists. eexists. rewrite map_app. cbn [map l_out]. rewrite last_last. split; [reflexivity|]. cbn [decl]. rewrite E1, E2.
    split; [reflexivity|]. split; [|reflexivity]. apply negb_false_iff, Nat.eqb_eq in E2. symmetry. exact E2.
Qed.

Lemma allb_true n p : (forall i, (i < n)%nat -> p i = true) -> allb n p = true.
Proof. intros H. apply forallb_forall. intros i Hi. apply in_seq in Hi. apply H. lia. Qed.
Lemma allb_all n p : allb n p = true -> forall i, (i < n)%nat -> p i = true.
Proof. intros H i Hi. unfold allb in H. rewrite forallb_forall in H. apply H, in_seq. lia. Qed.
Lemma close1_one x : x = 1 -> close1 x = true.
Proof. intros ->. unfold close1, rle. rewrite Rminus_diag_eq, Rabs_R0 by reflexivity. destruct (Rle_dec _ _); [reflexivity|]. lra. Qed.
Lemma rlt_true a b : a < b -> rlt a b = true.
Proof. intros H. unfold rlt. now destruct (Rlt_dec a b). Qed.

Lemma log_softmax_again n g i : (0 < n)%nat -> log_softmax n (fun j => ln (softmax n g j)) i = log_softmax n g i.
Proof.
  intros Hn. unfold log_softmax at 1. rewrite (bsum_ext n _ (softmax n g)) by (intros j Hj; apply exp_ln, softmax_pos, Hn).
  rewrite (softmax_sum n g Hn), ln_1, Rminus_0_r. rewrite <- (exp_log_softmax n g i Hn). apply ln_exp.
Qed.

Lemma touches_none V sc : touches V sc = false -> query sc <> [] -> covers V sc = false.
Proof.
  unfold touches, covers. destruct (query sc) as [|v r]; [congruence|]. cbn. intros H _. apply orb_false_iff in H as [-> _]. reflexivity.
Qed.

Lemma run_all_app a b t : run_all (a ++ b) t = bind (run_all a t) (run_all b).
Proof. revert t. induction a as [|l a IH]; intros t; [reflexivity|]. cbn. destruct (run l t); [apply IH|reflexivity]. Qed.
