(** RatSPN as a whole: what it computes, when it can be built.

    Fixed throughout: leaf modules covering one variable per feature ([leaves_ok]), the
    random draws of the Factorize layer ([draw_ok]), at least one repetition, a
    "consecutive" or "interleaved" split mode. *)
From Coq Require Import List Arith Bool Reals Lia Lra Permutation.
From Verif Require Import Base ScopeModel ScopeProofs CircuitModel CircuitSpec CircuitBasics CircuitEval Integral CircuitMarg CircuitProps
  CircuitExamples SampleModel SampleExp EmModel SplitModel SplitProofs LayerModel LayerSpec LayerProofs FactorModel FactorProofs FactorTop
  StackModel StackSpec StackProofs StackDist StackTop StackRat StackNan StackRatTop.
Import ListNotations.
Local Open Scope R_scope.

(** a model for the examples: Bernoulli leaves with [ch] channels over [n] variables, all
    logits zero *)
Definition ex_leaf (n ch : nat) (q : nat -> nat -> R) : module := MLeaf (bern (seq 0 n) ch 1 (fun f c _ => q f c)).
Definition zero_par : rat_par := mkRP (fun _ _ _ _ _ => 0) (fun _ _ _ => 0) (fun _ _ _ _ => 0).
Definition plain_draw (n depth : nat) : draw := mkDraw (base_sizes n (2 ^ depth)) (fun _ => seq 0 n).
Lemma ex_leaf_built n ch q : (0 < n)%nat -> (0 < ch)%nat -> built (ex_leaf n ch q).
Proof.
  intros Hn Hc. apply b_leaf. apply bern_ok; [|apply seq_NoDup|exact Hc|lia]. destruct n; [lia|discriminate].
Qed.
Lemma ex_leaves_ok n ch q reps : (0 < n)%nat -> (0 < ch)%nat -> leaves_ok [ex_leaf n ch q] (ex_leaf n ch q) (mkShape n ch 1) reps.
Proof.
  intros Hn Hc. constructor.
  - constructor; [now apply ex_leaf_built|constructor].
  - reflexivity.
  - exact I.
  - cbn. now rewrite seq_length.
  - reflexivity.
  - right. reflexivity.
Qed.
Lemma plain_ok n depth : draw_ok n depth (plain_draw n depth).
Proof. split; [apply Permutation_refl|intros r; apply Permutation_refl]. Qed.
Lemma ex_fin n ch q x : (forall f c, 0 < q f c < 1) -> (forall v, (v < n)%nat -> x v = None \/ x v = Some 0 \/ x v = Some 1) ->
  forall f c r, in_shape (mkShape n ch 1) f c r -> loglik (ex_leaf n ch q) x f c r <> NInf.
Proof.
  intros Hq Hx f c r (If & _). cbn [features] in If. unfold ex_leaf, loglik. cbn [evalm]. unfold leaf_score. cbn [bern l_scope query l_lp].
  rewrite seq_nth by exact If. cbn [plus]. destruct (Hq f c) as [A B].
  destruct (Hx f If) as [E|[E|E]]; rewrite E; cbn; [discriminate| |].
  - unfold bern_lp. destruct (Req_EM_T 0 1); [lra|]. destruct (Req_EM_T 0 0); [|lra]. rewrite lfrom_Fin by lra. discriminate.
  - unfold bern_lp. destruct (Req_EM_T 1 1); [|lra]. rewrite lfrom_Fin by lra. discriminate.
Qed.
Definition ex_cfg : rat_cfg := mkRat 2 2 3 2 true None 2.

(** what a successful construction says about the arguments *)
Lemma rat_ok_fine leaves c p d k m s st : leaves_ok leaves m s (ra_reps c) -> (1 <= ra_reps c)%nat ->
  rat_mode c = Ok (k, 2%nat) -> k <> ByIndex -> mk_rat leaves c p d = Ok st -> rat_fine c m /\ rat_no3 c m.
Proof.
  intros HL HR Hm Hk E.
  assert (HF : rat_fine c m).
  { rewrite (mk_rat_eq leaves c p d k 2 m s HL Hm) in E. destruct (_ || _)%bool eqn:B; [discriminate|].
    apply orb_false_iff in B. destruct B as [B B3]. apply orb_false_iff in B. destruct B as [B1 B2].
    apply Nat.ltb_ge in B1, B2, B3. destruct (mk_factorize _ _ _ _ _ _ _) as [fm|] eqn:Ef; [|discriminate]. cbn [bind] in E.
    unfold rat_ops in E. destruct (Nat.eqb_spec (ra_depth c) 0) as [|Hd]; [discriminate|].
    repeat (split; [assumption|]). split; [lia|].
    exact (proj1 (mk_ok_iff _ _ _ _ _ _ _) (ex_intro _ fm Ef)). }
  split; [exact HF|]. unfold rat_no3. destruct (ra_outer c) eqn:EO; [now left|right].
  destruct (Nat.eq_dec (channels (out_shape m)) 3) as [A|A]; destruct (Nat.eq_dec (ra_region c) 3) as [B|B];
  destruct (Nat.le_gt_cases 2 (ra_depth c)) as [L|L]; destruct (Nat.le_gt_cases 3 (ra_depth c)) as [L'|L'];
  try (split; intros [? ?]; lia); exfalso;
  rewrite (rat_rejected leaves c p d k m s HL Hm Hk HR HF) in E; try discriminate E;
  intros [Q|[Q1 Q2]]; try congruence; (apply Q1; split; assumption) || (apply Q2; split; assumption).
Qed.

(** ** C182: the log-likelihood of a RatSPN is the logarithm of the mixture over root
    channels and repetitions of the recursively defined region densities *)
Theorem C182_value : forall leaves c p d k m s st,
  leaves_ok leaves m s (ra_reps c) -> draw_ok (length (query (scope_of m))) (ra_depth c) d -> (1 <= ra_reps c)%nat ->
  rat_mode c = Ok (k, 2%nat) -> k <> ByIndex -> mk_rat leaves c p d = Ok st ->
  exists grp, partitions (length (query (scope_of m))) (ra_reps c) (2 ^ ra_depth c) grp /\
  forall x, (forall f ch r, in_shape s f ch r -> loglik m x f ch r <> NInf) ->
  exists t, stack_ll st x = Ok t /\ t_sh (n_t t) = mkShape 1 1 1 /\
    0 < rat_density c p k m s grp x /\ nval t 0 0 0 = FFin (ln (rat_density c p k m s grp x)).
Proof.
  intros leaves c p d k m s st HL [Hs Hp] HR Hm Hk E.
  destruct (rat_ok_fine _ _ _ _ _ _ _ _ HL HR Hm Hk E) as [HF H3].
  exists (fc_mat (k_fact st)). split.
  - destruct (rat_built leaves c p d k m s HL Hm Hk HR HF H3) as (st' & E' & _ & Ef & _). rewrite E in E'. injection E' as <-.
    intros r i Hr Hi. destruct (owner_exists _ _ _ _ _ _ _ _ Hs Hp Ef r i Hi) as (g & Hg & Eg).
    exists g. split; [exact Hg|]. split; [exact Eg|]. intros h Eh. exact (owner_unique _ _ _ _ _ _ _ _ Hs Hp Ef r i h g Eh Eg).
  - intros x Hx. exact (rat_value leaves c p d k m s HL Hm Hk HR st x HF H3 E Hx).
Qed.
Print Assumptions C182_value.
Example C182_ex : exists st, mk_rat [ex_leaf 4 2 (fun _ _ => 1/2)] ex_cfg zero_par (plain_draw 4 2) = Ok st /\
  rat_mode ex_cfg = Ok (Consecutive, 2%nat) /\
  forall f ch r, in_shape (mkShape 4 2 1) f ch r -> loglik (ex_leaf 4 2 (fun _ _ => 1/2)) (fun v => if Nat.eqb v 1 then None else Some 1) f ch r <> NInf.
Proof.
  destruct (rat_built [ex_leaf 4 2 (fun _ _ => 1/2)] ex_cfg zero_par (plain_draw 4 2) Consecutive (ex_leaf 4 2 (fun _ _ => 1/2)) (mkShape 4 2 1))
    as (st & E & _); [apply ex_leaves_ok; lia|reflexivity|discriminate|cbn; lia|repeat split; cbn; lia|now left|].
  exists st. split; [exact E|]. split; [reflexivity|]. apply ex_fin; [intros; lra|]. intros v _. destruct (Nat.eqb v 1); auto.
Qed.

(** ** C183: a RatSPN describes a normalised distribution over the variables of its
    leaves, and leaving variables unobserved sums them out *)
Theorem C183_normalised : forall leaves c p d k m s st D,
  leaves_ok leaves m s (ra_reps c) -> draw_ok (length (query (scope_of m))) (ra_depth c) d -> (1 <= ra_reps c)%nat ->
  rat_mode c = Ok (k, 2%nat) -> k <> ByIndex -> mk_rat leaves c p d = Ok st -> leaves_norm D m ->
  exists f : row -> R, (forall x, 0 <= f x) /\
    (forall x, (forall i ch r, in_shape s i ch r -> loglik m x i ch r <> NInf) ->
       exists t, stack_ll st x = Ok t /\ t_sh (n_t t) = mkShape 1 1 1 /\ nval t 0 0 0 = FFin (ln (f x)) /\ 0 < f x) /\
    (forall x, sums_over D (query (scope_of m)) f x 1) /\
    (forall ws x, NoDup ws -> incl ws (query (scope_of m)) -> sums_over D ws f x (f (set_nan ws x))).
Proof.
  intros leaves c p d k m s st D HL Hd HR Hm Hk E Hn.
  destruct (rat_ok_fine _ _ _ _ _ _ _ _ HL HR Hm Hk E) as [HF H3].
  exists (rat_density c p k m s (fc_mat (k_fact st))).
  destruct (rat_dist leaves c p d k m s HL Hm Hk HR Hd st D HF H3 E Hn) as [A B].
  split; [exact B|]. split; [|split].
  - intros x Hx. destruct (rat_value leaves c p d k m s HL Hm Hk HR st x HF H3 E Hx) as (t & E1 & E2 & E3 & E4). exists t. auto.
  - assert (ND : NoDup (query (scope_of m))) by (apply (wf_scope m (wf_wf1 m (built_wf m (leaves_built _ _ _ _ HL))))).
    intros x. eapply sums_over_ext; [exact ND| |apply (is_dist_sums D _ _ A ND)].
    intros y _ _. cbn beta. now rewrite pr_lfrom.
  - intros ws x ND I. rewrite <- (pr_lfrom _ (B (set_nan ws x))). eapply sums_over_ext; [exact ND| |apply (is_dist_marginal D _ _ A ws ND I)].
    intros y _ _. cbn beta. now rewrite pr_lfrom.
Qed.
Print Assumptions C183_normalised.
Lemma ex_norm n ch q : (forall f c, 0 <= q f c <= 1) -> leaves_norm (fun _ => bits) (ex_leaf n ch q).
Proof. intros H. constructor; [|constructor]. apply bern_norm. intros. apply H. Qed.
Example C183_ex : leaves_norm (fun _ => bits) (ex_leaf 4 2 (fun _ _ => 1/2)).
Proof. apply ex_norm. intros. lra. Qed.

(** ** C184: which arguments RatSPN accepts (two-part splits) *)
Theorem C184_construction : forall leaves c p d k m s,
  leaves_ok leaves m s (ra_reps c) -> (1 <= ra_reps c)%nat -> rat_mode c = Ok (k, 2%nat) -> k <> ByIndex ->
  (exists st, mk_rat leaves c p d = Ok st) <-> rat_fine c m /\ rat_no3 c m.
Proof.
  intros leaves c p d k m s HL HR Hm Hk. split.
  - intros (st & E). exact (rat_ok_fine _ _ _ _ _ _ _ _ HL HR Hm Hk E).
  - intros [HF H3]. destruct (rat_built leaves c p d k m s HL Hm Hk HR HF H3) as (st & E & _). eauto.
Qed.
Print Assumptions C184_construction.
Example C184_ex : rat_fine ex_cfg (ex_leaf 4 2 (fun _ _ => 1/2)) /\ rat_no3 ex_cfg (ex_leaf 4 2 (fun _ _ => 1/2)).
Proof. split; [repeat split; cbn; lia|now left]. Qed.

(** ** C185: RatSPN accepts every architecture satisfying its documented requirements.
    False: with elementwise products, three leaf channels and depth two (or three region
    nodes and depth three) the constructor always raises. *)
Theorem C185_three_channels_refuted : forall leaves c p d k m s,
  leaves_ok leaves m s (ra_reps c) -> (1 <= ra_reps c)%nat -> rat_mode c = Ok (k, 2%nat) -> k <> ByIndex -> rat_fine c m ->
  ra_outer c = false ->
  (channels (out_shape m) = 3%nat /\ (2 <= ra_depth c)%nat) \/ (ra_region c = 3%nat /\ (3 <= ra_depth c)%nat) ->
  mk_rat leaves c p d = Err.
Proof.
  intros leaves c p d k m s HL HR Hm Hk HF HO H. apply (rat_rejected leaves c p d k m s HL Hm Hk HR HF).
  intros [Q|[Q1 Q2]]; [congruence|tauto].
Qed.
Print Assumptions C185_three_channels_refuted.
Example C185_ex : rat_fine (mkRat 1 1 1 2 false None 2) (ex_leaf 4 3 (fun _ _ => 1/2)) /\
  mk_rat [ex_leaf 4 3 (fun _ _ => 1/2)] (mkRat 1 1 1 2 false None 2) zero_par (plain_draw 4 2) = Err /\
  (exists st, mk_rat [ex_leaf 4 4 (fun _ _ => 1/2)] (mkRat 1 1 1 2 false None 2) zero_par (plain_draw 4 2) = Ok st).
Proof.
  assert (F : forall ch, (0 < ch)%nat -> rat_fine (mkRat 1 1 1 2 false None 2) (ex_leaf 4 ch (fun _ _ => 1/2))) by (intros ch _; repeat split; cbn; lia).
  split; [apply F; lia|]. split.
  - apply (C185_three_channels_refuted _ _ _ _ Consecutive (ex_leaf 4 3 (fun _ _ => 1/2)) (mkShape 4 3 1));
    [apply ex_leaves_ok; lia|cbn; lia|reflexivity|discriminate|apply F; lia|reflexivity|left; split; reflexivity].
  - apply (C184_construction _ _ _ _ Consecutive (ex_leaf 4 4 (fun _ _ => 1/2)) (mkShape 4 4 1)); [apply ex_leaves_ok; lia|cbn; lia|reflexivity|discriminate|].
    split; [apply F; lia|right]. cbn. split; intros [? ?]; lia.
Qed.

(** ** C186: [num_splits] may be any number from two upwards.  False: with three or more
    parts per partition no RatSPN can evaluate any row. *)
Theorem C186_num_splits_refuted : forall leaves c p d k n m s st x,
  leaves_ok leaves m s (ra_reps c) -> rat_mode c = Ok (k, n) -> (3 <= n)%nat -> mk_rat leaves c p d = Ok st -> stack_ll st x = Err.
Proof. exact rat_many. Qed.
Print Assumptions C186_num_splits_refuted.
Example C186_ex : exists st, mk_rat [ex_leaf 4 2 (fun _ _ => 1/2)] (mkRat 1 1 1 2 false None 4) zero_par (plain_draw 4 2) = Ok st /\
  rat_mode (mkRat 1 1 1 2 false None 4) = Ok (Consecutive, 4%nat).
Proof. eexists. split; reflexivity. Qed.

(** ** C187: a row gets NaN exactly if some observed value is impossible under some
    channel of its leaf; no row gets -inf *)
Theorem C187_nan : forall leaves c p d k m s st x,
  leaves_ok leaves m s (ra_reps c) -> draw_ok (length (query (scope_of m))) (ra_depth c) d -> (1 <= ra_reps c)%nat ->
  rat_mode c = Ok (k, 2%nat) -> k <> ByIndex -> mk_rat leaves c p d = Ok st ->
  exists t, stack_ll st x = Ok t /\ nval t 0 0 0 <> FNInf /\
    (nval t 0 0 0 = FNan <-> exists i ch r, in_shape s i ch r /\ loglik m x i ch r = NInf).
Proof.
  intros leaves c p d k m s st x HL Hd HR Hm Hk E.
  destruct (rat_ok_fine _ _ _ _ _ _ _ _ HL HR Hm Hk E) as [HF H3].
  destruct (Classical_Prop.classic (exists i ch r, in_shape s i ch r /\ loglik m x i ch r = NInf)) as [(i & ch & r & IN & N)|NO].
  - destruct (rat_nan leaves c p d k m s HL Hm Hk HR Hd st x i ch r HF H3 E IN N) as (t & E1 & _ & E2).
    exists t. split; [exact E1|]. rewrite E2. split; [discriminate|]. split; [intros _; eauto 6|reflexivity].
  - destruct (rat_value leaves c p d k m s HL Hm Hk HR st x HF H3 E) as (t & E1 & _ & _ & E2).
    { intros f ch r IN N. apply NO. eauto 6. }
    exists t. split; [exact E1|]. rewrite E2. split; [discriminate|]. split; [discriminate|intros Q; contradiction].
Qed.
Print Assumptions C187_nan.

(** ** C188: a row of positive probability gets the logarithm of its probability.  False:
    two Bernoulli variables with two channels, the first channel of variable 0 certain to
    be one; the row (0, 1) has positive probability under the second channel, and gets NaN *)
Definition hard (f c : nat) : R := match f, c with O, O => 1 | _, _ => 1/2 end.
Definition ex1_cfg : rat_cfg := mkRat 1 1 1 1 false None 2.
Definition row01 : row := fun v => match v with O => Some 0 | S _ => Some 1 end.
Theorem C188_possible_row_refuted : exists st t, mk_rat [ex_leaf 2 2 hard] ex1_cfg zero_par (plain_draw 2 1) = Ok st /\
  leaves_ok [ex_leaf 2 2 hard] (ex_leaf 2 2 hard) (mkShape 2 2 1) 1 /\ leaves_norm (fun _ => bits) (ex_leaf 2 2 hard) /\
  rat_density ex1_cfg zero_par Consecutive (ex_leaf 2 2 hard) (mkShape 2 2 1) (fc_mat (k_fact st)) row01 = 1/8 /\
  stack_ll st row01 = Ok t /\ nval t 0 0 0 = FNan.
Proof.
  assert (HL := ex_leaves_ok 2 2 hard 1 ltac:(lia) ltac:(lia)).
  assert (HF : rat_fine ex1_cfg (ex_leaf 2 2 hard)) by (repeat split; cbn; lia).
  assert (H3 : rat_no3 ex1_cfg (ex_leaf 2 2 hard)) by (right; cbn; split; intros [? ?]; lia).
  destruct (rat_built [ex_leaf 2 2 hard] ex1_cfg zero_par (plain_draw 2 1) Consecutive (ex_leaf 2 2 hard) (mkShape 2 2 1) HL
    (eq_refl _) ltac:(discriminate) ltac:(cbn; lia) HF H3) as (st & E & _ & Ef & _).
  destruct (rat_nan [ex_leaf 2 2 hard] ex1_cfg zero_par (plain_draw 2 1) Consecutive (ex_leaf 2 2 hard) (mkShape 2 2 1) HL
    (eq_refl _) ltac:(discriminate) ltac:(cbn; lia) (plain_ok 2 1) st row01 0 0 0 HF H3 E) as (t & E1 & _ & E2).
  { repeat split; cbn; lia. }
  { unfold loglik, ex_leaf. cbn [evalm]. unfold leaf_score. cbn. unfold bern_lp. destruct (Req_EM_T 0 1); [lra|]. destruct (Req_EM_T 0 0); [|lra].
    unfold lfrom. destruct (Rlt_dec 0 (1 - 1)); [lra|reflexivity]. }
  exists st, t. split; [exact E|]. split; [exact HL|]. split.
  { apply ex_norm. intros [|f] [|c]; cbn; lra. }
  split; [|auto].
  assert (EM : forall i o, fc_mat (k_fact st) 0 i o = entry [[0]; [1]]%nat i o).
  { change (Ok (mkFact 2 2 2 1 1 (fun _ i o => entry [[0]; [1]]%nat i o)) = Ok (k_fact st)) in Ef. injection Ef as <-. reflexivity. }
  assert (S2 : forall i, softmax 2 (fun _ => 0) i = 1/2).
  { intros i. unfold softmax. cbn [bsum]. rewrite exp_0. lra. }
  assert (P1 : forall f c, pr (loglik (ex_leaf 2 2 hard) row01 f c 0%nat) = match f with O => 1 - hard 0 c | S O => hard 1 c | _ => pr (loglik (ex_leaf 2 2 hard) row01 f c 0%nat) end).
  { intros [|[|f]] c; [| |reflexivity]; unfold loglik, ex_leaf; cbn [evalm]; unfold leaf_score; cbn -[bern_lp].
    - apply pr_bern_0. destruct c; cbn; lra.
    - apply pr_bern_1. lra. }
  unfold rat_density, mixed. cbn [ra_root ra_reps ra_depth ra_outer ra_region ex1_cfg zero_par rp_mix rp_root rp_sum bsum].
  rewrite !softmax_one. cbn [region rat_channels child Nat.eqb ex_leaf out_shape channels bern l_ch Nat.sub Nat.pow Nat.mul Nat.add bsum repetitions].
  rewrite !S2. unfold group_prob. cbn [scope_of ex_leaf bern l_scope query length seq bprod]. change (bidx 1 0) with 0%nat. rewrite !EM, !P1. cbn. unfold hard. lra.
Qed.
Print Assumptions C188_possible_row_refuted.
