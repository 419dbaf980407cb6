From Coq Require Import List Arith Bool Reals Lia Lra.
From Verif Require Import Base ScopeModel CircuitModel CircuitEval MargModel EmModel LayerModel FactorModel StackModel StackProofs RatMargModel RatMargProofs.
Import ListNotations.
Local Open Scope R_scope.

(** two tensors with the same entries *)
Definition same_tensor (a b : nt) : Prop :=
  t_sh (n_t a) = t_sh (n_t b) /\
  forall f c r, (f < features (t_sh (n_t a)))%nat -> (c < channels (t_sh (n_t a)))%nat -> (r < repetitions (t_sh (n_t a)))%nat ->
    nval a f c r = nval b f c r.
Definition same_ll (st st' : stack) : Prop := forall x t, stack_ll st x = Ok t -> exists t', stack_ll st' x = Ok t' /\ same_tensor t t'.

Lemma sum_again s co nr lg out : (0 < channels s)%nat -> (0 < co)%nat -> out = mkShape (features s) co nr ->
  exists lg', new_sum s (W4 (mkW (features s) (channels s) co nr (fun f i o r => softmax (channels s) (fun j => lg f j o r) i)))
    = Ok (mkLay (OSum co nr lg') s out) /\
  forall t u, run (mkLay (OSum co nr lg) s out) t = Ok u -> exists u', run (mkLay (OSum co nr lg') s out) t = Ok u' /\ same_tensor u u'.
Proof.
  intros Hc Ho ->. eexists. split.
  - unfold new_sum. cbn [norm_warg wO wR wv wF wI]. destruct (Nat.ltb_spec co 1); [lia|].
    assert (Q : weights_shape_ok (mkW (features s) (channels s) co nr (fun f i o r => softmax (channels s) (fun j => lg f j o r) i)) (features s) (channels s) co nr = true)
      by (unfold weights_shape_ok; cbn [wF wI wO wR]; now rewrite !Nat.eqb_refl). rewrite Q. cbn [negb].
    assert (P : weights_pos (mkW (features s) (channels s) co nr (fun f i o r => softmax (channels s) (fun j => lg f j o r) i)) = true).
    { unfold weights_pos. cbn [wF wI wO wR wv]. apply allb_true; intros f _; apply allb_true; intros i _; apply allb_true; intros o _; apply allb_true; intros r _.
      apply rlt_true, softmax_pos, Hc. }
    rewrite P. cbn [negb].
    assert (S1 : weights_sum1 (mkW (features s) (channels s) co nr (fun f i o r => softmax (channels s) (fun j => lg f j o r) i)) = true).
    { unfold weights_sum1. cbn [wF wI wO wR wv]. apply allb_true; intros f _; apply allb_true; intros o _; apply allb_true; intros r _.
      apply close1_one. apply (softmax_sum (channels s) (fun j => lg f j o r) Hc). }
    rewrite S1. cbn [negb]. reflexivity.
  - intros t u. unfold run. cbn [l_op l_in l_out].
    destruct (negb _) eqn:N; [discriminate|]. apply negb_false_iff, andb_true_iff in N. destruct N as [_ NC]. apply Nat.eqb_eq in NC.
    rewrite NC. destruct (bcast _ nr) as [r'|]; [|discriminate]. cbn [bind].
    intros E. injection E as <-. eexists. split; [reflexivity|]. split; [reflexivity|].
    intros f c r _ _ _. unfold nval. cbn [n_nan n_t t_ll]. destruct (anyb _ _); [reflexivity|]. f_equal.
    unfold lse. f_equal. apply bsum_ext. intros i Hi. rewrite log_softmax_again by exact Hc. reflexivity.
Qed.

Lemma mix_again s co lg out : channels s = co -> co = 1%nat -> out = mkShape (features s) co 1 ->
  exists lg', new_sum s (W3 (features s) co 1 (fun f c r => softmax 1 (lg f c) r)) = Ok (mkLay (OSum 1 1 lg') s out) /\
  forall t u, run (mkLay (OMix co 1 lg) s out) t = Ok u -> exists u', run (mkLay (OSum 1 1 lg') s out) t = Ok u' /\ same_tensor u u'.
Proof.
  intros Hs -> ->.
  assert (One : forall g : nat -> R, softmax 1 g 0 = 1). { intros g. pose proof (softmax_sum 1 g ltac:(lia)) as E. cbn [bsum] in E. lra. }
  assert (Z1 : forall g : nat -> R, log_softmax 1 g 0 = 0). { intros g. unfold log_softmax. cbn [bsum]. rewrite Rplus_0_l, ln_exp. ring. }
  eexists. split.
  - unfold new_sum. cbn [norm_warg wO wR wv wF wI]. cbn [Nat.ltb Nat.leb]. unfold weights_shape_ok. cbn [wF wI wO wR]. rewrite Hs, !Nat.eqb_refl. cbn [andb negb].
    assert (P : weights_pos (mkW (features s) 1 1 1 (fun g i o _ => softmax 1 (lg g i) o)) = true).
    { unfold weights_pos. cbn [wF wI wO wR wv]. apply allb_true; intros f _; apply allb_true; intros i _; apply allb_true; intros o _; apply allb_true; intros r _.
      apply rlt_true, softmax_pos. lia. }
    rewrite P. cbn [negb].
    assert (S1 : weights_sum1 (mkW (features s) 1 1 1 (fun g i o _ => softmax 1 (lg g i) o)) = true).
    { unfold weights_sum1. cbn [wF wI wO wR wv]. apply allb_true; intros f _; apply allb_true; intros o Ho; apply allb_true; intros r _.
      apply close1_one. replace o with 0%nat by lia. cbn [bsum]. rewrite One. lra. }
    rewrite S1. cbn [negb]. reflexivity.
  - intros t u. unfold run. cbn [l_op l_in l_out].
    destruct (negb _) eqn:N; [discriminate|]. apply negb_false_iff, andb_true_iff in N. destruct N as [_ NC]. apply Nat.eqb_eq in NC.
    rewrite NC, Hs. destruct (Nat.eqb_spec (repetitions (t_sh (n_t t))) 1) as [ER|]; [|discriminate]. cbn [negb]. rewrite ER.
    intros E. injection E as <-. cbn [bcast Nat.eqb bind]. eexists. split; [reflexivity|]. split; [reflexivity|].
    cbn [n_t t_sh features channels repetitions]. intros f c r _ Hc Hr. assert (c = 0%nat) by lia. assert (r = 0%nat) by lia. subst c r.
    unfold nval. cbn [n_nan n_t t_ll]. unfold bidx. cbn [Nat.eqb].
    unfold anyb. cbn [seq existsb]. destruct (n_nan t f 0 0 || false)%bool; [reflexivity|]. f_equal.
    unfold repmix_ll, lse. f_equal. cbn [bsum]. f_equal. f_equal. f_equal. f_equal.
    now rewrite !Z1.
Qed.

Lemma same_top la l l' s st st' : k_layers st = la ++ [l] -> k_layers st' = la ++ [l'] -> k_leaf st' = k_leaf st -> k_fact st' = k_fact st ->
  (forall t u, run l t = Ok u -> exists u', run l' t = Ok u' /\ same_tensor u u') -> s = tt -> same_ll st st'.
Proof.
  intros E E' EL EF H _ x t. unfold stack_ll. rewrite EL, EF, E, E'. destruct (leaf_tensor _ x) as [a|]; [|discriminate]. cbn [bind].
  destruct (fact_run _ a) as [b|]; [|discriminate]. cbn [bind]. rewrite !run_all_app. destruct (run_all la b) as [v|]; [|discriminate]. cbn [bind run_all].
  destruct (run l v) as [u|] eqn:R; [|discriminate]. cbn [bind]. intros Q. injection Q as <-. destruct (H v u R) as (u' & -> & Hs). cbn [bind]. exists u'. auto.
Qed.

Section Nothing.
Variables (leaves : list module) (c : rat_cfg) (p : rat_par) (d : draw) (st : stack) (V : list nat).
Hypothesis E : mk_rat leaves c p d = Ok st.
Hypothesis NE : query (scope_of (k_leaf st)) <> [].
Hypothesis NT : touches V (scope_of (k_leaf st)) = false.

Lemma marg_keep : (2 <= ra_root c)%nat \/ ra_reps c = 1%nat -> exists st', rat_marg_result V st = Some st' /\ stack_shape st' = stack_shape st /\ same_ll st st'.
Proof.
  intros H. pose proof (touches_none _ _ NT NE) as NC. destruct (rat_last _ _ _ _ _ E) as (la & s & o & EL & D & Cs & Eo).
  destruct (rat_top _ _ _ _ _ E) as (_ & _ & _ & Hr & _).
  unfold rat_marg_result, rat_marg. rewrite EL, rev_app_distr. cbn [rev app]. cbn [marg_layers l_op l_in]. subst o.
  destruct (Nat.ltb_spec 1 (ra_root c)) as [H1|H1].
  - cbn [decl] in D. cbn [Nat.ltb Nat.leb] in D. change (Nat.ltb 1 1) with false in D; cbv iota in D; assert (D' : stack_shape st = mkShape (features s) 1 1) by congruence. clear D. rename D' into D.
    destruct (sum_again s 1 1 (rp_root p) (stack_shape st) ltac:(lia) ltac:(lia) D) as (lg' & N & Rn).
    rewrite NC, NT. cbn [layer_weights l_op l_in]. rewrite N. eexists. split; [reflexivity|]. cbn [rev]. rewrite rev_involutive. split.
    + unfold stack_shape at 1, top_shape. cbn [k_layers k_fact]. rewrite map_app. cbn [map l_out]. now rewrite last_last.
    + eapply (same_top la _ _ tt); [exact EL|reflexivity|reflexivity|reflexivity|exact Rn|reflexivity].
  - assert (R1 : ra_root c = 1%nat) by lia. destruct H as [H|H]; [lia|]. rewrite R1, H in D. rewrite R1 in Cs. rewrite R1, H. cbn [decl] in D. revert D. rewrite Cs. cbn [Nat.ltb Nat.leb Nat.eqb negb]. intros D.
    change (Nat.ltb 1 1) with false in D; cbv iota in D; assert (D' : stack_shape st = mkShape (features s) 1 1) by congruence.
    destruct (mix_again s 1 (rp_mix p) (stack_shape st) Cs eq_refl D') as (lg' & N & Rn).
    rewrite NC, NT. cbn [layer_weights l_op l_in]. rewrite N. eexists. split; [reflexivity|]. cbn [rev]. rewrite rev_involutive. split.
    + unfold stack_shape at 1, top_shape. cbn [k_layers k_fact]. rewrite map_app. cbn [map l_out]. now rewrite last_last.
    + rewrite R1, H in EL. eapply (same_top la _ _ tt); [exact EL|reflexivity|reflexivity|reflexivity|exact Rn|reflexivity].
Qed.

Lemma two_not_close a b : 0 < a -> 0 < b -> a + b <= 1 -> close1 a = true -> close1 b = true -> False.
Proof.
  unfold close1, rle. intros Ha Hb Hs. destruct (Rle_dec (Rabs (a - 1)) _) as [A|]; [|discriminate]. destruct (Rle_dec (Rabs (b - 1)) _) as [B|]; [|discriminate].
  intros _ _. rewrite Rabs_left1 in A by lra. rewrite Rabs_left1 in B by lra. lra.
Qed.

Lemma marg_keep_raise : ra_root c = 1%nat -> (2 <= ra_reps c)%nat -> (0 < features (stack_shape st))%nat -> rat_marg V st = MRaise.
Proof.
  intros R1 HR HF. pose proof (touches_none _ _ NT NE) as NC. destruct (rat_last _ _ _ _ _ E) as (la & s & o & EL & D & Cs & Eo).
  unfold rat_marg. rewrite EL, rev_app_distr. cbn [rev app]. cbn [marg_layers l_op l_in]. subst o. rewrite R1 in Cs, D |- *. change (Nat.ltb 1 1) with false in D |- *. cbv iota in D |- *.
  cbn [decl] in D. revert D. rewrite Cs. cbn [Nat.ltb Nat.leb Nat.eqb negb]. intros D. change (Nat.ltb 1 1) with false in D; cbv iota in D; assert (D' : features (stack_shape st) = features s) by (replace (stack_shape st) with (mkShape (features s) 1 (ra_reps c)) by congruence; reflexivity).
  rewrite NC, NT. cbn [layer_weights l_op l_in].
  enough (N : new_sum s (W3 (features s) 1 (ra_reps c) (fun f c0 r => softmax (ra_reps c) (rp_mix p f c0) r)) = Err) by now rewrite N.
  unfold new_sum. cbn [norm_warg wO wR wv wF wI]. destruct (Nat.ltb _ 1); [reflexivity|]. destruct (negb _); [reflexivity|]. destruct (negb _); [reflexivity|].
  destruct (weights_sum1 _) eqn:W; [exfalso|reflexivity].
  unfold weights_sum1 in W. cbn [wF wI wO wR wv] in W.
  pose proof (allb_all _ _ W 0%nat ltac:(lia)) as W0. cbn beta in W0.
  pose proof (allb_all _ _ W0 0%nat ltac:(lia)) as A. pose proof (allb_all _ _ W0 1%nat ltac:(lia)) as B. cbn beta in A, B.
  pose proof (allb_all _ _ A 0%nat ltac:(lia)) as A'. pose proof (allb_all _ _ B 0%nat ltac:(lia)) as B'. cbn [bsum] in A', B'. rewrite Rplus_0_l in A', B'.
  assert (Hp : (0 < ra_reps c)%nat) by lia.
  refine (two_not_close _ _ (softmax_pos _ _ _ Hp) (softmax_pos _ _ _ Hp) _ A' B').
  rewrite <- (softmax_sum (ra_reps c) (rp_mix p 0 0) Hp).
  generalize (fun i => softmax_pos (ra_reps c) (rp_mix p 0%nat 0%nat) i Hp). generalize (softmax (ra_reps c) (rp_mix p 0%nat 0%nat)). intros g G.
  clear - HR G. induction HR as [|m Hm IH]; cbn [bsum] in *; [lra|]. specialize (G m). lra.
Qed.
End Nothing.
