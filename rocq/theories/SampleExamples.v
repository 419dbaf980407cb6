(** Concrete sampling runs. *)
From Coq Require Import List Arith Bool Lia Lra.
From Verif Require Import Base ScopeModel ScopeProofs CircuitModel CircuitSpec CircuitBasics CircuitEval Integral CircuitMarg MargModel MargProofs CircuitProps CircuitExamples SampleModel SampleSpec SampleExp SampleProofs SampleTop SampleApi SampleKeep.
Import ListNotations.
Local Open Scope R_scope.

Lemma sample_logits_pos n g : 0 < bsum n (fun i => pr (g i)) ->
  sample_logits false n g = Choose n (fun i => pr (g i) / bsum n (fun j => pr (g j))) (fun i => Ret i).
Proof. intros H. unfold sample_logits. destruct (Rlt_dec _ _); [reflexivity|contradiction]. Qed.

(** *** evidence in [data] is ignored by the sums when no cache is filled *)
Definition e1 : row := fun v => if Nat.eqb v 0 then Some 1 else None.
Definition y1 : row := fun v => if Nat.eqb v 0 then Some 1 else if Nat.eqb v 2 then Some 1 else None.

Lemma exS_prob_row (p0 p1 : nat -> R) x : (forall c, (c < 2)%nat -> prob exA x 0 c 0 = p0 c) -> (forall c, (c < 2)%nat -> prob exA x 1 c 0 = p1 c) ->
  prob exS x 0 0 0 = 1/4 * (p0 0%nat * p1 0%nat) + 3/4 * (p0 1%nat * p1 1%nat).
Proof.
  intros H0 H1. unfold exS. rewrite prob_pev, pev_sum by (cbn; lia).
  change (channels (out_shape (MProduct exA))) with 2%nat.
  rewrite bsum_ext with (g := fun i => (if Nat.eqb i 0 then 1/4 else 3/4) * (p0 i * p1 i)).
  - cbn. lra.
  - intros i Hi. rewrite pev_product. change (features (out_shape exA)) with 2%nat. cbn [bprod].
    change (bidx (ll_reps (MProduct exA)) 0) with 0%nat. rewrite <- !prob_pev, H0, H1 by exact Hi.
    unfold softmax. cbn [wv ex_w bsum Nat.eqb]. rewrite !exp_ln; [|lra|lra|destruct (Nat.eqb i 0); lra]. field.
Qed.

Lemma exA_pr_nan x f c : x (nth f [0; 2]%nat 0%nat) = None -> prob exA x f c 0 = 1.
Proof. intros H. unfold prob, loglik. cbn [evalm exA]. unfold leaf_score. cbn [l_scope query bern]. rewrite H. apply pr_Fin0. Qed.
Lemma exA_pr_one x f c : x (nth f [0; 2]%nat 0%nat) = Some 1 -> prob exA x f c 0 = if Nat.eqb f c then 1/4 else 1/2.
Proof.
  intros H. unfold prob, loglik. cbn [evalm exA]. unfold leaf_score. cbn [l_scope query bern]. rewrite H. cbn [l_lp].
  apply pr_bern_1. destruct (Nat.eqb f c); lra.
Qed.
Lemma joint_one m y : features (out_shape m) = 1%nat -> joint m y = prob m y 0 0 0.
Proof. intros E. unfold joint. rewrite E. cbn. ring. Qed.

Lemma exS_e1 : joint exS e1 = 7/16.
Proof.
  rewrite joint_one by reflexivity.
  rewrite (exS_prob_row (fun c => if Nat.eqb 0 c then 1/4 else 1/2) (fun _ => 1)).
  - cbn. lra.
  - intros c _. now apply exA_pr_one.
  - intros c _. now apply exA_pr_nan.
Qed.
Lemma exS_y1 : joint exS y1 = 1/8.
Proof.
  rewrite joint_one by reflexivity.
  rewrite (exS_prob_row (fun c => if Nat.eqb 0 c then 1/4 else 1/2) (fun c => if Nat.eqb 1 c then 1/4 else 1/2)).
  - cbn. lra.
  - intros c _. now apply exA_pr_one.
  - intros c _. now apply exA_pr_one.
Qed.

Lemma exS_sum_pick : sum_pick false None (MProduct exA) 1 1 (fun f i o r => ln (wv ex_w f i o r)) 0 0 0 =
  Choose 2 (fun i => if Nat.eqb i 0 then 1/4 else 3/4) (fun i => Ret i).
Proof.
  unfold sum_pick. change (Nat.ltb 0 1 && Nat.ltb 0 1)%bool with true. cbv iota. change (channels (out_shape (MProduct exA))) with 2%nat.
  assert (forall i, pr (Fin (ln (wv ex_w 0 i 0 0))) = if Nat.eqb i 0 then 1/4 else 3/4) as E.
  { intros i. cbn [pr wv ex_w]. apply exp_ln. destruct (Nat.eqb i 0); lra. }
  assert (bsum 2 (fun i => pr (Fin (ln (wv ex_w 0 i 0 0)))) = 1) as ES.
  { cbn [bsum]. rewrite !E. cbn. lra. }
  rewrite sample_logits_pos; rewrite ES; [|lra]. f_equal. apply functional_extensionality. intros i. rewrite E. field.
Qed.

Lemma exS_ignores : expects (fun _ => bits) (sample false 3 exS e1) (tests (point y1) [2]%nat) (5/16).
Proof.
  assert (forall i, (i < 2)%nat -> 
    expects (fun _ => bits) (sample_m false 3 None (MProduct exA) (mkCtx [i] [true] 0) e1) (tests (point y1) [2]%nat)
      (if Nat.eqb 1 i then 1/4 else 1/2)) as H.
  { intros i Hi. assert (i = 0 \/ i = 1)%nat as [-> | ->] by lia; cbn;
      (exists (fun a => if Req_EM_T a 1 then 1 else 0); split; [intros a; unfold tests, point; cbn; destruct (Req_EM_T a 1); ring|]);
      cbn; rewrite pr_bern_0, pr_bern_1 by lra; destruct (Req_EM_T 0 1); destruct (Req_EM_T 1 1); lra. }
  unfold sample, init_ctx. unfold exS. cbn [sample_m].
  change (features (out_shape (MProduct exA))) with 1%nat.
  change (validate [1; 1]%nat 1 1 (mkCtx [0%nat] [true] 0)) with true. cbv iota.
  change (broadcast 1 (mkCtx [0%nat] [true] 0)) with (Ok (mkCtx [0%nat] [true] 0)). cbv iota beta.
  cbn [c_ci c_mask c_rep choose_channels].
  rewrite exS_sum_pick. cbn [pbind expects].
  exists (fun i => if Nat.eqb 1 i then 1/4 else 1/2). split.
  - intros i Hi _. apply (H i Hi).
  - cbn. lra.
Qed.

(** *** sampling into a fresh tensor needs scope {0, ..., n-1} *)
Definition gap : module := MProduct (MCat false (mkScope [0; 5]%nat [])
  [MLeaf (bern [0]%nat 1 1 (fun _ _ _ => 1/2)); MLeaf (bern [5]%nat 1 1 (fun _ _ _ => 1/2))]).

Lemma gap_built : built gap.
Proof.
  apply (b_product [MLeaf (bern [0]%nat 1 1 (fun _ _ _ => 1/2)); MLeaf (bern [5]%nat 1 1 (fun _ _ _ => 1/2))]); [|reflexivity].
  repeat constructor; apply b_leaf, bern_ok; try lia; try discriminate; repeat constructor; cbn; intuition lia.
Qed.
Lemma gap_raises : forall mpe y, ~ outcome (sample_new mpe gap) y.
Proof. intros [] y H; cbn in H; inversion H; subst; cbn in *; eapply no_outcome_raise; eassumption. Qed.

(** *** an unselected branch without support raises *)
(** torch.distributions.Uniform.log_prob: log(low <= a) + log(a < high) - log(high - low) *)
Definition unif_lp (lo hi a : R) : lval :=
  if Rle_dec lo a then if Rlt_dec a hi then Fin (- ln (hi - lo)) else NInf else NInf.
(** spflow/modules/leaves/uniform.py; mode: midpoint (90-92) *)
Definition unif (q : list nat) (ch : nat) (hi : nat -> nat -> R) : leaf :=
  mkLeaf (mkScope q []) ch 1 (fun f c _ => unif_lp 0 (hi f c)) (fun f c _ => hi f c / 2).

Definition brA : module := MSum (MLeaf (unif [0]%nat 1 (fun _ _ => 2))) 1 1 (fun _ _ _ _ => 0).
Definition brB : module := MSum (MLeaf (unif [0]%nat 1 (fun _ _ => 1))) 1 1 (fun _ _ _ _ => 0).
Definition brC : module := MCat true (mkScope [0]%nat []) [brA; brB].
Definition br : module := MSum brC 1 1 (fun _ _ _ _ => 0).

Lemma unif_ok hi : leaf_okb (unif [0]%nat 1 hi) = true.
Proof. apply leaf_okb_spec. cbn. repeat split; try lia; try discriminate; repeat constructor; cbn; intuition lia. Qed.
Lemma brs_built hi : built (MSum (MLeaf (unif [0]%nat 1 hi)) 1 1 (fun _ _ _ _ => 0)).
Proof.
  eapply b_log_weights. eapply (b_sum_w (MLeaf (unif [0]%nat 1 hi)) 1 1 (W4 (mkW 1 1 1 1 (fun _ _ _ _ => 1)))); [apply b_leaf, unif_ok|].
  apply (mk_sum_w_intro (MLeaf (unif [0]%nat 1 hi)) (mkW 1 1 1 1 (fun _ _ _ _ => 1))); cbn; try lia; intros; lra.
Qed.
Lemma br_built : built br.
Proof.
  eapply b_log_weights. eapply (b_sum_w brC 1 1 (W4 (mkW 1 2 1 1 (fun _ _ _ _ => 1/2)))).
  - apply (b_cat true [brA; brB]); [|reflexivity]. repeat constructor; apply brs_built.
  - apply (mk_sum_w_intro brC (mkW 1 2 1 1 (fun _ _ _ _ => 1/2))); cbn; try lia; intros; lra.
Qed.

Definition one_row : row := fun v => if Nat.eqb v 0 then Some 1 else None.

Lemma brs_prob hi x a : x 0%nat = Some a -> prob (MSum (MLeaf (unif [0]%nat 1 hi)) 1 1 (fun _ _ _ _ => 0)) x 0 0 0 = pr (unif_lp 0 (hi 0%nat 0%nat) a).
Proof.
  intros E. rewrite prob_pev, pev_sum by (cbn; lia). change (channels (out_shape (MLeaf (unif [0]%nat 1 hi)))) with 1%nat. cbn [bsum].
  unfold softmax. cbn [bsum]. unfold pev. cbn [evalm]. unfold leaf_score. cbn [l_scope unif query nth]. rewrite E.
  rewrite exp_0. cbn [l_lp unif]. field.
Qed.
Lemma br_prob : joint br one_row = 1/4.
Proof.
  rewrite joint_one by reflexivity. unfold br. rewrite prob_pev, pev_sum by (cbn; lia). change (channels (out_shape brC)) with 2%nat. cbn [bsum].
  unfold softmax. cbn [bsum].
  change (bidx (ll_reps brC) 0) with 0%nat.
  change (pev (leaf_score one_row) brC 0 0 0) with (prob brA one_row 0 0 0).
  change (pev (leaf_score one_row) brC 0 1 0) with (prob brB one_row 0 0 0).
  assert (prob brA one_row 0 0 0 = pr (unif_lp 0 2 1)) as -> by (apply (brs_prob (fun _ _ => 2)); reflexivity).
  assert (prob brB one_row 0 0 0 = pr (unif_lp 0 1 1)) as -> by (apply (brs_prob (fun _ _ => 1)); reflexivity).
  unfold unif_lp. destruct (Rle_dec 0 1); [|lra]. destruct (Rlt_dec 1 2); [|lra]. destruct (Rlt_dec 1 1); [lra|].
  cbn [pr]. rewrite exp_0. rewrite Rminus_0_r, exp_Ropp, exp_ln by lra. lra.
Qed.

Lemma brB_raises t : c_ci t = [0%nat] -> forall x, sample_m false 1 (Some one_row) brB t x = Raise.
Proof.
  intros E x. destruct t as [ci mask r]. cbn in E. subst ci. unfold brB. cbn [sample_m].
  change (features (out_shape (MLeaf (unif [0%nat] 1 (fun _ _ => 1))))) with 1%nat.
  destruct (validate _ _ _ _) eqn:EV; [|reflexivity]. unfold broadcast. cbn [c_ci length Nat.eqb c_rep choose_channels].
  assert (r = 0%nat) as ->.
  { unfold validate in EV. rewrite !andb_true_iff in EV. destruct EV as [_ EV]. apply Nat.ltb_lt in EV. cbn in EV. lia. }
  unfold sum_pick at 1. change (Nat.ltb 0 1 && Nat.ltb 0 1)%bool with true. cbv iota. cbn [ll_reps l_rep unif channels out_shape l_ch].
  change (Nat.ltb 0 1) with true. cbv iota.
  unfold sample_logits. cbn [bsum].
  destruct (Rlt_dec _ _) as [H|H]; [|reflexivity]. exfalso. revert H. cbn [loglik evalm]. unfold loglik. cbn [evalm]. unfold leaf_score. cbn.
  unfold unif_lp. destruct (Rle_dec 0 1); [|lra]. destruct (Rlt_dec 1 1); [lra|]. cbn. lra.
Qed.

Lemma br_raises : forall y, ~ outcome (sample_with_evidence false 1 br one_row) y.
Proof.
  intros y H. unfold sample_with_evidence in H. change (ll_shape br) with (Ok (mkShape 1 1 1)) in H. cbv iota in H.
  change (forallb (fun v => Nat.ltb v 1) (query (scope_of br))) with true in H. cbv iota in H.
  unfold br in H. cbn [sample_m] in H. change (features (out_shape brC)) with 1%nat in H.
  change (validate [1; 1]%nat 1 1 init_ctx) with true in H. cbv iota in H.
  change (broadcast 1 init_ctx) with (Ok init_ctx) in H. cbv iota beta in H.
  apply outcome_bind in H. destruct H as (ns & Hns & H). apply choose_length in Hns. cbn in Hns.
  destruct ns as [|n [|]]; try discriminate. unfold brC in H. rewrite sample_m_cat in H. cbv zeta in H.
  destruct (validate _ _ _ _); [|now apply no_outcome_raise in H].
  change (features (out_shape (MCat true (mkScope [0%nat] []) [brA; brB]))) with 1%nat in H. unfold broadcast in H. cbn [c_ci length Nat.eqb] in H.
  destruct (cat_ok _ _ _); [|now apply no_outcome_raise in H].
  cbn [cat_run] in H. destruct (child_ok true 0 _ _); [|now apply no_outcome_raise in H].
  apply outcome_bind in H. destruct H as (z & _ & H). destruct (child_ok true _ _ _); [|now apply no_outcome_raise in H].
  apply outcome_bind in H. destruct H as (z' & H & _).
  change (next_off true 0 (out_shape brA)) with 1%nat in H. change (channels (out_shape brB)) with 1%nat in H.
  destruct (in_range 1 1 n) eqn:ER.
  - assert (n = 1)%nat as -> by (unfold in_range in ER; apply andb_true_iff in ER; destruct ER as [E1 E2]; apply Nat.leb_le in E1; apply Nat.ltb_lt in E2; lia).
    rewrite brB_raises in H by reflexivity. now apply no_outcome_raise in H.
  - rewrite brB_raises in H; [now apply no_outcome_raise in H|]. unfold child_ctx, route. cbn [c_ci map channels out_shape brB].
    now rewrite ER.
Qed.

(** *** an unaligned circuit leaves cells unfilled *)
Lemma unP_unfilled : exists y, outcome (sample false 2 unP (fun _ => None)) y /\ y 1%nat = None.
Proof.
  unfold sample, init_ctx, unP. cbn [sample_m]. change (channels (out_shape unS)) with 1%nat. change (repetitions (out_shape unS)) with 1%nat.
  change (features (out_shape unS)) with 2%nat.
  change (validate [1; 1]%nat 1 1 (mkCtx [0%nat] [true] 0)) with true. cbv iota.
  change (broadcast 2 (mkCtx [0%nat] [true] 0)) with (Ok (mkCtx [0; 0]%nat [true; true] 0)). cbv iota beta.
  unfold unS. cbn [sample_m]. change (features (out_shape unC)) with 2%nat.
  change (validate [1; 2]%nat 1 1 (mkCtx [0; 0]%nat [true; true] 0)) with true. cbv iota.
  change (broadcast 2 (mkCtx [0; 0]%nat [true; true] 0)) with (Ok (mkCtx [0; 0]%nat [true; true] 0)). cbv iota beta.
  assert (forall f, exists w, (forall i, (i < 2)%nat -> w i <> 0) /\
     sum_pick false None unC 1 1 (fun f i o r => ln (wv un_w f i o r)) 0 f 0 = Choose 2 w (fun i => Ret i)) as P.
  { intros f. exists (fun i => 1/2). split; [intros; lra|]. unfold sum_pick. change (Nat.ltb 0 1 && Nat.ltb 0 1)%bool with true. cbv iota.
    change (channels (out_shape unC)) with 2%nat.
    assert (forall i, pr (Fin (ln (wv un_w f i 0 0))) = 1/2) as E by (intros i; cbn; apply exp_ln; lra).
    assert (bsum 2 (fun i => pr (Fin (ln (wv un_w f i 0 0)))) = 1) as ES by (cbn [bsum]; rewrite !E; lra).
    rewrite sample_logits_pos; rewrite ES; [|lra]. f_equal. apply functional_extensionality. intros i. rewrite E. field. }
  destruct (P 0%nat) as (w0 & N0 & E0). destruct (P 1%nat) as (w1 & N1 & E1).
  cbn [c_ci c_mask c_rep choose_channels]. rewrite E0, E1. cbn [pbind].
  (* feature 0 picks the first input, feature 1 the second *)
  exists (upd (fun _ => None) 0%nat (Some 1)).
  split; [|reflexivity].
  apply (o_choose _ _ _ 0%nat); [lia|apply N0; lia|]. apply (o_choose _ _ _ 1%nat); [lia|apply N1; lia|].
  cbn. apply (o_draw _ _ _ _ _ 1). cbn.
  apply o_ret.
Qed.

(** *** mpe is greedy *)
Definition gr_w : wtensor := mkW 1 2 1 1 (fun _ i _ _ => if Nat.eqb i 0 then 3/5 else 2/5).
Definition grL : module := MLeaf (bern [0]%nat 2 1 (fun _ c _ => if Nat.eqb c 0 then 2/5 else 9/10)).
Definition gr : module := MSum grL 1 1 (fun f i o r => ln (wv gr_w f i o r)).
Lemma gr_built : built gr.
Proof.
  apply (b_sum_w grL 1 1 (W4 gr_w)).
  - apply b_leaf, bern_ok; try lia; try discriminate. repeat constructor; cbn; intuition lia.
  - apply (mk_sum_w_intro grL gr_w); cbn; try lia.
    + intros f i o r _ Hi _ _. destruct (Nat.eqb i 0); lra.
    + intros; lra.
Qed.
Definition at0 (a : R) : row := fun v => if Nat.eqb v 0 then Some a else None.
Lemma gr_prob a : a = 0 \/ a = 1 -> prob gr (at0 a) 0 0 0 = if Req_EM_T a 1 then 3/5 else 2/5.
Proof.
  intros Ha. unfold gr. rewrite prob_pev, pev_sum by (cbn; lia). change (channels (out_shape grL)) with 2%nat. cbn [bsum].
  unfold softmax. cbn [bsum wv gr_w Nat.eqb]. rewrite !exp_ln by lra. unfold pev. cbn [evalm grL]. unfold leaf_score. cbn [l_scope bern query nth at0 Nat.eqb l_lp].
  destruct Ha as [-> | ->].
  - rewrite !pr_bern_0 by lra. destruct (Req_EM_T 0 1); lra.
  - rewrite !pr_bern_1 by lra. destruct (Req_EM_T 1 1); lra.
Qed.
Lemma gr_mpe W : (0 < W)%nat -> sample true W gr (fun _ => None) = Ret (upd (fun _ => None) 0%nat (Some 0)).
Proof.
  intros HW. unfold sample, gr. cbn [sample_m]. change (features (out_shape grL)) with 1%nat.
  change (validate [1; 1]%nat 1 1 init_ctx) with true. cbv iota.
  change (broadcast 1 init_ctx) with (Ok init_ctx). cbv iota beta. cbn [init_ctx c_ci c_mask c_rep choose_channels].
  unfold sum_pick at 1. change (Nat.ltb 0 1 && Nat.ltb 0 1)%bool with true. cbv iota. change (channels (out_shape grL)) with 2%nat. unfold sample_logits.
  assert (argmax 2 (fun i => Fin (ln (wv gr_w 0 i 0 0))) = 0%nat) as ->.
  { cbn [argmax Nat.eqb llt wv gr_w]. destruct (Rlt_dec (ln (3/5)) (ln (2/5))) as [H|H]; [|reflexivity]. exfalso.
    apply ln_lt_inv in H; lra. }
  cbn [pbind]. unfold grL. cbn [sample_m]. unfold sample_leaf, scope_cols. cbn [l_scope bern query forallb].
  destruct (Nat.ltb_spec 0 W); [|lia]. cbn.
  destruct (Rle_dec (2/5) (1/2)); [reflexivity|lra].
Qed.
