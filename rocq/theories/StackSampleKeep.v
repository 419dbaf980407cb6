(** Sampling from stacks: what is kept, what is filled, when it raises. *)
From Coq Require Import List Arith Bool Reals Lia Lra Permutation.
From Verif Require Import Base ScopeModel ScopeProofs CircuitModel CircuitSpec CircuitBasics CircuitEval Integral CircuitMarg CircuitProps
  SampleModel SampleSpec SampleExp SampleProofs SampleTop SampleApi SampleKeep EmModel SplitModel SplitProofs LayerModel LayerSpec LayerProofs FactorModel FactorProofs FactorTop
  StackModel StackSpec StackProofs StackDist StackTop StackRat StackNan StackRatTop StackEinSpec StackEin StackEinTop StackPostModel StackPostSpec StackPost StackPostTop
  StackSampleModel StackSampleStep StackSamplePair StackSampleLeaf StackSampleSpec StackSampleBase StackSampleTop.
Import ListNotations.
Local Open Scope R_scope.

Lemma from_keep mpe W st ls ev t x y : built (k_leaf st) -> outcome (stack_sample_from mpe W st ls ev t x) y ->
  (forall v, x v <> None -> y v = x v) /\ (cols_fine W (k_leaf st) -> forall v, ~ In v (query (scope_of (k_leaf st))) -> y v = x v).
Proof.
  intros B H. unfold stack_sample_from in H. apply outcome_bind in H. destruct H as (b & _ & H).
  apply outcome_bind in H. destruct H as (t1 & _ & H). apply outcome_bind in H. destruct H as (t2 & _ & H).
  exact (sample_ext mpe W ev (k_leaf st) (built_wf _ B) t2 x y H).
Qed.
Lemma stack_keep mpe W n st ev x y : built (k_leaf st) -> outcome (stack_sample mpe W n st ev x) y ->
  (forall v, x v <> None -> y v = x v) /\ (cols_fine W (k_leaf st) -> forall v, ~ In v (query (scope_of (k_leaf st))) -> y v = x v).
Proof.
  intros B H. unfold stack_sample in H. destruct (Nat.ltb 1 n).
  - apply outcome_bind in H. destruct H as (lg & _ & H). apply outcome_bind in H. destruct H as (c & _ & H). exact (from_keep _ _ _ _ _ _ _ _ B H).
  - exact (from_keep _ _ _ _ _ _ _ _ B H).
Qed.

Lemma may_raise_bind {A B} (p : prog A) (k : A -> prog B) a : outcome p a -> may_raise (k a) -> may_raise (pbind p k).
Proof.
  induction 1 as [a|n w k' i b Hi Hw Ho IH|l f c r k' a b Ho IH]; intros H; cbn [pbind]; [exact H| |].
  - eapply r_choose; eauto.
  - eapply r_draw; eauto.
Qed.
Lemma bsum_nonzero n (w h : nat -> R) : bsum n (fun i => w i * h i) <> 0 -> exists i, (i < n)%nat /\ w i <> 0 /\ h i <> 0.
Proof.
  induction n as [|n IH]; cbn [bsum]; [lra|]. intros H.
  destruct (Req_EM_T (w n) 0) as [E|E]; [|destruct (Req_EM_T (h n) 0) as [E'|E']].
  - destruct IH as (i & Hi & H'); [rewrite E in H; lra|exists i; auto].
  - destruct IH as (i & Hi & H'); [rewrite E' in H; lra|exists i; auto].
  - exists n. auto.
Qed.
Lemma expects_outcome {A} (p : prog A) g u : expects (fun _ => DFin []) p g u -> u <> 0 -> exists a, outcome p a /\ g a <> 0.
Proof.
  revert u. induction p as [a| |n w k IH|l f c r k IH]; intros u H Hu; cbn [expects] in H.
  - subst u. exists a. split; [constructor|exact Hu].
  - contradiction.
  - destruct H as (h & Hh & E). rewrite <- E in Hu. destruct (bsum_nonzero n w h Hu) as (i & Hi & Hw & Hi').
    destruct (IH i (h i) (Hh i Hi Hw) Hi') as (a & Ha & Hg). exists a. split; [eapply o_choose; eauto|exact Hg].
  - destruct H as (h & _ & E). cbn in E. subst u. contradiction.
Qed.

Lemma from_fill W leaves m s depth reps d st ops ls t ev e y : leaves_ok leaves m s reps -> leafy reps leaves -> (0 < reps)%nat ->
  draw_ok (length (query (scope_of m))) depth d -> k_leaf st = m ->
  mk_factorize (length (query (scope_of m))) (length (query (scope_of m))) (channels (out_shape m)) depth reps (d_sizes d) (d_perms d) = Ok (k_fact st) ->
  routes ops (base_shape m depth reps) (base_shape m depth reps) -> assemble (base_shape m depth reps) ops = Ok ls -> good (shs ops (base_shape m depth reps)) t ->
  columns_in m W -> possible m s e -> ev = Some e \/ ev = None ->
  outcome (stack_sample_from false W st ls ev t e) y -> forall v, vars m v -> y v <> None.
Proof.
  intros HL Hlf HR [Hs Hp] El Ef Hr Ea G HW Hfin Hev H v Hv. unfold stack_sample_from in H. rewrite El in H.
  pose proof (leaves_built _ _ _ _ HL) as Bm. pose proof (built_wf m Bm) as Wf. pose proof (lo_one _ _ _ _ HL) as One.
  apply outcome_bind in H. destruct H as (b & Hb & H). apply outcome_bind in H. destruct H as (t1 & H1 & H).
  assert (C : exists P1, cached b (base_shape m depth reps) P1).
  { destruct Hev as [-> | ->].
    - destruct (fact_holds m s depth reps d (k_fact st) Bm (lo_shape _ _ _ _ HL) One (lo_reps _ _ _ _ HL) HR Ef e Hfin) as (t0 & E0 & H0).
      destruct (leaf_tensor m e); [|discriminate]. cbn [bind] in *. rewrite E0 in Hb. cbn [bind of_result] in Hb. inversion Hb; subst. eexists. exact H0.
    - inversion Hb; subst. exists (fun _ _ _ => 1). intros f c r _. reflexivity. }
  destruct C as (P1 & Hc). pose proof (proj1 (down_ok (fun _ => DFin []) ops _ _ ls Hr Ea b P1 t Hc G) t1 H1) as G1.
  destruct (fact_part m depth reps d (k_fact st) One HR Hs Hp Ef t1 G1) as (t2 & E2 & (L1 & L2 & _) & Mk & _).
  rewrite E2 in H. cbn [of_result pbind] in H. unfold vars in Hv. apply (wf_union m (wf_wf1 m Wf)) in Hv. destruct Hv as (f & Hf & Hv).
  apply (sample_fill false W ev m Wf (lo_aligned _ _ _ _ HL) HW t2 e y L1 L2 H f v Hf); [|exact Hv].
  rewrite Mk, nth_repeat_lt; [reflexivity|]. rewrite <- One. exact Hf.
Qed.

(** a RatSPN of several repetitions over a leaf of one repetition *)
Lemma region_slice depth outer k ch lg B B' l : forall f o r, (forall f c, B f c r = B' f c r) -> region depth outer k ch lg B l f o r = region depth outer k ch lg B' l f o r.
Proof.
  induction l as [|l IH]; intros f o r H; cbn [region]; [apply H|]. apply bsum_ext. intros i _. f_equal. f_equal; apply IH; exact H.
Qed.
Lemma region_pos depth outer k ch lg B l r : (forall j, (0 < ch j)%nat) -> (forall f c, 0 < B f c r) -> forall f o, 0 < region depth outer k ch lg B l f o r.
Proof.
  intros Hc HB. induction l as [|l IH]; intros f o; cbn [region]; [apply HB|].
  assert (HN : (0 < (if outer then ch l * ch l else ch l))%nat) by (specialize (Hc l); destruct outer; nia).
  apply bsum_pos; [exact HN|]. intros i Hi. apply Rmult_lt_0_compat; [now apply softmax_pos|]. apply Rmult_lt_0_compat; apply IH.
Qed.
Lemma bsum_zero n : bsum n (fun _ => 0) = 0.
Proof. induction n as [|n IH]; cbn [bsum]; [reflexivity|rewrite IH; ring]. Qed.
Lemma region_zero depth outer k ch lg B l r : (forall f c, B f c r = 0) -> forall f o, region depth outer k ch lg B l f o r = 0.
Proof.
  intros HB. induction l as [|l IH]; intros f o; cbn [region]; [apply HB|].
  match goal with |- bsum ?n ?g = 0 => rewrite (bsum_ext n g (fun _ => 0)); [apply bsum_zero|] end.
  intros i _. rewrite IH. ring.
Qed.
Lemma bprod_nonzero n f i : bprod n f <> 0 -> (i < n)%nat -> f i <> 0.
Proof.
  induction n as [|n IH]; [lia|]. cbn [bprod]. intros H Hi E. destruct (Nat.eq_dec i n) as [->|N]; [apply H; rewrite E; ring|].
  apply IH in E; [exact E| |lia]. intros Z. apply H. rewrite Z. ring.
Qed.
Lemma rat_raises l c p d k s st W x : let m := MLeaf l in
  leaves_ok [m] m s (ra_reps c) -> l_rep l = 1%nat -> (2 <= ra_reps c)%nat -> ra_root c = 1%nat ->
  draw_ok (length (query (scope_of m))) (ra_depth c) d -> rat_mode c = Ok (k, 2%nat) -> k <> ByIndex -> rat_fine c m -> rat_no3 c m ->
  mk_rat [m] c p d = Ok st -> may_raise (rat_sample false W c st x).
Proof.
  intros m HL Hl HR2 Hroot [Hs Hp] Hm Hk HF H3 Est. assert (HR : (0 < ra_reps c)%nat) by lia.
  destruct (rat_setup [m] c p d k m s st HL Hm Hk HR HF H3 Est (or_introl Hroot)) as (la & El & Ef & Hroute & Ea & Esh & Hlay).
  destruct Hlay as [[_ Elay]|[Hq _]]; [|lia].
  set (bs := base_shape m (ra_depth c) (ra_reps c)) in *.
  set (Ph := fun (f c r : nat) => if Nat.eqb r 1 then 1 else 0 : R).
  assert (G : good (shs (rat_pre c p k) bs) init_ctx).
  { rewrite Esh, Hroot. split; [reflexivity|]. split; [reflexivity|]. split; [cbn; lia|]. intros f Hf. cbn in Hf |- *. replace f with 0%nat by lia. cbn. lia. }
  destruct (down_ok (fun _ => DFin []) (rat_pre c p k) bs bs la Hroute Ea None (fun _ _ _ => 1) init_ctx (fun _ _ _ _ => eq_refl) G) as [A B].
  specialize (B Ph). rewrite Esh in B. cbn [features] in B.
  assert (U : ratio 1 (sems (rat_pre c p k) bs Ph) (sems (rat_pre c p k) bs (fun _ _ _ => 1)) init_ctx <> 0).
  { unfold ratio, Wt, init_ctx. cbn [bprod c_ci c_rep nth]. rewrite !Rmult_1_l.
    rewrite (sems_one _ _ _ Hroute (fun _ _ _ => 1)); [|reflexivity|rewrite Esh; repeat split; cbn; lia].
    unfold Rdiv. rewrite Rinv_1, Rmult_1_r. unfold bs. rewrite (bs_eq c m).
    rewrite (proj2 (rat_pre_ok [m] c p k m s HL Hk HR HF H3)) by lia.
    apply Rgt_not_eq. set (g := fun r : nat => _ * _). 
    assert (PC : forall j, (0 < rat_channels (ra_depth c) (channels (out_shape m)) (ra_root c) (ra_region c) j)%nat).
    { intros j. unfold rat_channels. destruct HF as (F1 & F2 & _). destruct (Nat.eqb j 0); [exact (C0_pos [m] c m s HL)|]. destruct (Nat.eqb j (ra_depth c)); lia. }
    assert (G1 : 0 < g 1%nat).
    { unfold g. apply Rmult_lt_0_compat; [apply softmax_pos; lia|]. apply region_pos; [exact PC|]. intros; unfold Ph; cbn; lra. }
    assert (G0 : forall r, 0 <= g r).
    { intros r. destruct (Nat.eq_dec r 1) as [->|N]; [lra|]. unfold g. rewrite region_zero; [lra|]. intros f ch. unfold Ph. now destruct (Nat.eqb_spec r 1). }
    assert (GS : forall n, (1 < n)%nat -> 0 < bsum n g).
    { induction n as [|n IH]; [lia|]. intros Hn. cbn [bsum]. destruct (Nat.eq_dec n 1) as [->|N].
      - cbn [bsum]. pose proof (G0 0%nat). lra.
      - pose proof (IH ltac:(lia)). pose proof (G0 n). lra. }
    apply GS. lia. }
  destruct (expects_outcome _ _ _ B U) as (t1 & O1 & N1). pose proof (A t1 O1) as Gt.
  assert (R1 : c_rep t1 = 1%nat).
  { unfold ratio, Wt in N1. assert (N2 : bprod (features bs) (fun f => Ph f (nth f (c_ci t1) 0%nat) (c_rep t1)) <> 0).
    { intros Z. apply N1. rewrite Z. unfold Rdiv. ring. }
    pose proof (bprod_nonzero _ _ 0%nat N2 (pow_pos _)) as N3. unfold Ph in N3. destruct (Nat.eqb_spec (c_rep t1) 1); [assumption|lra]. }
  unfold rat_sample, stack_sample. destruct (Nat.ltb_spec 1 (ra_root c)); [lia|]. unfold stack_sample_from. cbn [of_result pbind]. rewrite Elay.
  eapply may_raise_bind; [exact O1|]. 
  destruct (fact_part m (ra_depth c) (ra_reps c) d (k_fact st) (lo_one _ _ _ _ HL) HR Hs Hp Ef t1 Gt) as (t2 & E2 & (_ & _ & Rt & _) & _).
  rewrite E2. cbn [of_result pbind]. rewrite El. unfold m. cbn [sample_m]. unfold sample_leaf.
  assert (V : forall ws, validate ws (l_ch l) (l_rep l) t2 = false).
  { intros ws. unfold validate. rewrite Rt, R1, Hl. change (Nat.ltb 1 1) with false. now rewrite !andb_false_r. }
  rewrite V. constructor.
Qed.
