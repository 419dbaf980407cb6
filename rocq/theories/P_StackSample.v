(** Sampling from RatSPN and Einet. *)
From Coq Require Import List Arith Bool Reals Lia Lra Permutation.
From Verif Require Import Base ScopeModel ScopeProofs CircuitModel CircuitSpec CircuitBasics CircuitEval Integral CircuitMarg CircuitProps
  CircuitExamples SampleModel SampleSpec SampleExp SampleProofs SampleTop SampleApi SampleKeep EmModel SplitModel SplitProofs LayerModel LayerSpec LayerProofs FactorModel FactorProofs FactorTop
  StackModel StackSpec StackProofs StackDist StackTop StackRat StackNan StackRatTop StackEinSpec StackEin StackEinTop StackPostModel StackPostSpec StackPost StackPostTop
  StackSampleModel StackSampleStep StackSamplePair StackSampleLeaf StackSampleSpec StackSampleBase StackSampleTop StackSampleKeep P_Rat P_Einet.
Import ListNotations.
Local Open Scope R_scope.

Section Rat.
Variables (leaves : list module) (c : rat_cfg) (p : rat_par) (d : draw) (k : split_kind) (m : module) (s : shape) (W : nat) (st : stack).
Hypothesis S : rat_sampler leaves c p d k m s W st.
Let HL := rs_leaves _ _ _ _ _ _ _ _ _ S. Let Hlf := rs_leafy _ _ _ _ _ _ _ _ _ S. Let Hd := rs_draw _ _ _ _ _ _ _ _ _ S.
Let HR := rs_reps _ _ _ _ _ _ _ _ _ S. Let Hm := rs_mode _ _ _ _ _ _ _ _ _ S. Let Hk := rs_kind _ _ _ _ _ _ _ _ _ S.
Let E := rs_made _ _ _ _ _ _ _ _ _ S. Let HW := rs_cols _ _ _ _ _ _ _ _ _ S. Let H1 := rs_one _ _ _ _ _ _ _ _ _ S.
Let HF : rat_fine c m := proj1 (rat_ok_fine _ _ _ _ _ _ _ _ HL HR Hm Hk E).
Let H3 : rat_no3 c m := proj2 (rat_ok_fine _ _ _ _ _ _ _ _ HL HR Hm Hk E).
Notation grp := (fc_mat (k_fact st)).
Notation dens x := (rat_density c p k m s grp x).
Notation cls x q := (rat_class c p k m s grp x q).
Lemma rs_partitions : partitions (length (query (scope_of m))) (ra_reps c) (2 ^ ra_depth c) grp.
Proof.
  destruct Hd as [Hs Hp]. destruct (rat_built leaves c p d k m s HL Hm Hk HR HF H3) as (st' & E' & _ & Ef & _). pose proof E as E0. rewrite E0 in E'. injection E' as <-.
  intros r i Hr Hi. destruct (owner_exists _ _ _ _ _ _ _ _ Hs Hp Ef r i Hi) as (g & Hg & Eg).
  exists g. split; [exact Hg|]. split; [exact Eg|]. intros h Eh. exact (owner_unique _ _ _ _ _ _ _ _ Hs Hp Ef r i h g Eh Eg).
Qed.
Lemma rs_explains : explains st m s (rat_density c p k m s grp).
Proof. intros x Hx. exact (rat_value leaves c p d k m s HL Hm Hk HR st x HF H3 E Hx). Qed.
Lemma rs_leaf : k_leaf st = m.
Proof. destruct (rat_built leaves c p d k m s HL Hm Hk HR HF H3) as (st' & E' & El & _). pose proof E as E0. rewrite E0 in E'. injection E' as <-. exact El. Qed.
Lemma rs_with_evidence e : possible m s e -> rat_sample_with_evidence false W c st e = stack_sample false W (ra_root c) st (Some e) e.
Proof.
  intros He. unfold rat_sample_with_evidence. destruct (rs_explains e He) as (t & -> & _). rewrite rs_leaf.
  replace (forallb _ _) with true; [reflexivity|]. symmetry. apply forallb_forall. intros v Hv. apply Nat.ltb_lt. now apply HW.
Qed.
Lemma rs_one_root x : ra_root c = 1%nat -> dens x = cls x 0.
Proof. intros R1. rewrite rat_dens. rewrite R1. cbn [bsum]. unfold rat_prior. rewrite R1, softmax_one. ring. Qed.
Lemma rs_cond dom e vs y : (forall v, NoDup (dom v)) -> possible m s e -> missing e (query (scope_of m)) vs -> completes dom vs e y ->
  expects (fun v => DFin (dom v)) (rat_sample_with_evidence false W c st e) (tests (point y) vs)
    (bsum (ra_root c) (fun q => rat_prior c p q * (cls y q / cls e q))).
Proof.
  intros ND He Mi Hy. rewrite rs_with_evidence by exact He.
  exact (rat_law_fin leaves c p d k m s st HL Hlf Hm Hk HR HF H3 E H1 Hd dom W (Some e) e y vs ND HW He (or_introl eq_refl) Mi Hy).
Qed.
End Rat.

(** ** C197: sample_with_evidence of a RatSPN with one root node completes the row: every
    completion has probability density(completed) / density(evidence) *)
Theorem C197_conditional : forall leaves c p d k m s W st, rat_sampler leaves c p d k m s W st -> ra_root c = 1%nat ->
  exists grp, partitions (length (query (scope_of m))) (ra_reps c) (2 ^ ra_depth c) grp /\ explains st m s (rat_density c p k m s grp) /\
  forall dom e vs y, (forall v, NoDup (dom v)) -> possible m s e -> missing e (query (scope_of m)) vs -> completes dom vs e y ->
  expects (fun v => DFin (dom v)) (rat_sample_with_evidence false W c st e) (tests (point y) vs)
    (rat_density c p k m s grp y / rat_density c p k m s grp e).
Proof.
  intros leaves c p d k m s W st S R1. exists (fc_mat (k_fact st)). split; [exact (rs_partitions _ _ _ _ _ _ _ _ _ S)|].
  split; [exact (rs_explains _ _ _ _ _ _ _ _ _ S)|]. intros dom e vs y ND He Mi Hy.
  pose proof (rs_cond _ _ _ _ _ _ _ _ _ S dom e vs y ND He Mi Hy) as H. rewrite R1 in H. cbn [bsum] in H. unfold rat_prior in H. rewrite R1, softmax_one, Rplus_0_l, Rmult_1_l in H.
  now rewrite !rs_one_root by exact R1.
Qed.
Print Assumptions C197_conditional.
(** Bernoulli leaves over [n] variables with [ch] channels and [rep] repetitions *)
Definition rleaf (n ch rep : nat) (q : nat -> nat -> nat -> R) : module := MLeaf (bern (seq 0 n) ch rep q).
Lemma rleaf_ok n ch rep q : (0 < n)%nat -> (0 < ch)%nat -> (0 < rep)%nat -> leaves_ok [rleaf n ch rep q] (rleaf n ch rep q) (mkShape n ch rep) rep.
Proof.
  intros Hn Hc Hr. constructor.
  - constructor; [|constructor]. apply b_leaf. apply bern_ok; [|apply seq_NoDup|exact Hc|exact Hr]. destruct n; [lia|discriminate].
  - reflexivity.
  - exact I.
  - cbn. now rewrite seq_length.
  - reflexivity.
  - left. reflexivity.
Qed.
Lemma rleaf_leafy n ch rep q : leafy rep [rleaf n ch rep q].
Proof. constructor; [|constructor]. eexists. split; reflexivity. Qed.
Lemma rleaf_fin n ch rep q x : (forall f c r, 0 < q f c r < 1) -> (forall v, (v < n)%nat -> x v = None \/ x v = Some 0 \/ x v = Some 1) ->
  possible (rleaf n ch rep q) (mkShape n ch rep) x.
Proof.
  intros Hq Hx f c r (If & _). cbn [features] in If. unfold rleaf, loglik. cbn [evalm]. unfold leaf_score. cbn [bern l_scope query l_lp].
  rewrite seq_nth by exact If. cbn [plus]. destruct (Hq f c r) as [A B].
  destruct (Hx f If) as [E|[E|E]]; rewrite E; cbn; [discriminate| |].
  - unfold bern_lp. destruct (Req_EM_T 0 1); [lra|]. destruct (Req_EM_T 0 0); [|lra]. rewrite lfrom_Fin by lra. discriminate.
  - unfold bern_lp. destruct (Req_EM_T 1 1); [|lra]. rewrite lfrom_Fin by lra. discriminate.
Qed.
Lemma rleaf_cols n ch rep q W : (n <= W)%nat -> columns_in (rleaf n ch rep q) W.
Proof. intros H v Hv. unfold vars in Hv. cbn in Hv. apply in_seq in Hv. lia. Qed.
Lemma rleaf_sampler n ch root region reps depth outer q p : (0 < n)%nat -> (0 < ch)%nat -> (1 <= reps)%nat ->
  let c := mkRat root region reps depth outer None 2 in let m := rleaf n ch reps q in
  rat_fine c m -> rat_no3 c m -> root = 1%nat \/ reps = 1%nat ->
  exists st, rat_sampler [m] c p (plain_draw n depth) Consecutive m (mkShape n ch reps) n st.
Proof.
  intros Hn Hc Hr c m HF H3 H1. assert (HL := rleaf_ok n ch reps q Hn Hc Hr).
  destruct (rat_built [m] c p (plain_draw n depth) Consecutive m (mkShape n ch reps) HL (eq_refl _) ltac:(discriminate) Hr HF H3) as (st & E & _).
  exists st. constructor; try assumption; [apply rleaf_leafy| |reflexivity|discriminate|apply rleaf_cols; lia].
  cbn. rewrite seq_length. apply plain_ok.
Qed.
Lemma bits_nodup : NoDup [0; 1].
Proof. constructor; [intros [H|[]]; lra|]. constructor; [intros []|constructor]. Qed.

(** three repetitions, outer products, depth two *)
Example C197_ex : exists st,
  rat_sampler [rleaf 4 2 3 (fun _ _ _ => 1/2)] (mkRat 1 2 3 2 true None 2) zero_par (plain_draw 4 2) Consecutive (rleaf 4 2 3 (fun _ _ _ => 1/2)) (mkShape 4 2 3) 4 st /\
  possible (rleaf 4 2 3 (fun _ _ _ => 1/2)) (mkShape 4 2 3) (fun v => if Nat.eqb v 1 then None else Some 1) /\
  missing (fun v => if Nat.eqb v 1 then None else Some 1) [0; 1; 2; 3]%nat [1%nat] /\
  completes (fun _ => [0; 1]) [1%nat] (fun v => if Nat.eqb v 1 then None else Some 1) (fun _ => Some 1).
Proof.
  destruct (rleaf_sampler 4 2 1 2 3 2 true (fun _ _ _ => 1/2) zero_par) as (st & H); try lia; [repeat split; cbn; lia|now left|].
  exists st. split; [exact H|]. split; [|split].
  - apply rleaf_fin; [intros; lra|]. intros v _. destruct (Nat.eqb v 1); auto.
  - split; [constructor; [intros []|constructor]|]. intros v. cbn [In]. destruct (Nat.eqb_spec v 1) as [->|N]; split; intros X.
    + split; auto.
    + auto.
    + destruct X as [X|[]]; lia.
    + destruct X; discriminate.
  - split.
    + intros v _. exists 1. split; [reflexivity|right; now left].
    + intros v Hv. destruct (Nat.eqb_spec v 1) as [->|N]; [|reflexivity]. exfalso. apply Hv. now left.
Qed.

(** ** C198: sample() of a RatSPN draws from its distribution: on a row whose cells are all
    missing, every completion has the model's probability, for one root node or one repetition *)
Theorem C198_unconditional : forall leaves c p d k m s W st, rat_sampler leaves c p d k m s W st ->
  exists grp, partitions (length (query (scope_of m))) (ra_reps c) (2 ^ ra_depth c) grp /\ explains st m s (rat_density c p k m s grp) /\
  forall dom x vs y, (forall v, NoDup (dom v)) -> (forall v, vars m v -> x v = None) -> NoDup vs -> (forall v, In v vs <-> vars m v) -> completes dom vs x y ->
  expects (fun v => DFin (dom v)) (rat_sample false W c st x) (tests (point y) vs) (rat_density c p k m s grp y).
Proof.
  intros leaves c p d k m s W st S. exists (fc_mat (k_fact st)). split; [exact (rs_partitions _ _ _ _ _ _ _ _ _ S)|].
  split; [exact (rs_explains _ _ _ _ _ _ _ _ _ S)|]. intros dom x vs y ND Hx NDv Hvs Hy.
  assert (Mi : missing x (query (scope_of m)) vs).
  { split; [exact NDv|]. intros v. rewrite Hvs. unfold vars. split; [intros Hv; split; [exact Hv|now apply Hx]|intros [Hv _]; exact Hv]. }
  destruct S as [HL Hlf Hd HR Hm Hk E HW H1]. destruct (rat_ok_fine _ _ _ _ _ _ _ _ HL HR Hm Hk E) as [HF H3].
  pose proof (rat_law_fin leaves c p d k m s st HL Hlf Hm Hk HR HF H3 E H1 Hd dom W None x y vs ND HW (possible_missing _ _ _ _ _ HL Hx) (or_intror (conj eq_refl Hx)) Mi Hy) as L.
  unfold rat_sample. rewrite rat_dens. erewrite bsum_ext; [exact L|]. intros q Hq. cbn beta.
  rewrite (rat_class_one leaves c p d k m s st HL Hlf Hm Hk HR HF H3 E H1 Hd x q Hx Hq). unfold Rdiv. rewrite Rinv_1. ring.
Qed.
Print Assumptions C198_unconditional.
(** two root nodes, one repetition *)
Example C198_ex : exists st, rat_sampler [rleaf 4 2 1 (fun _ _ _ => 1/2)] (mkRat 2 2 1 2 true None 2) zero_par (plain_draw 4 2) Consecutive (rleaf 4 2 1 (fun _ _ _ => 1/2)) (mkShape 4 2 1) 4 st.
Proof. apply rleaf_sampler; try lia; [repeat split; cbn; lia|now left]. Qed.

(** ** C199: continuous or mixed variables: the expected product of test functions of the
    drawn cells is the ratio of the class with the leaves' expectations to the density of
    the evidence *)
Theorem C199_general : forall leaves c p d k m s W st, rat_sampler leaves c p d k m s W st -> ra_root c = 1%nat ->
  exists grp, partitions (length (query (scope_of m))) (ra_reps c) (2 ^ ra_depth c) grp /\ explains st m s (rat_density c p k m s grp) /\
  forall D h I e vs, (forall v a, 0 <= h v a) ->
  (forall l f ch r, In l (leaves_of m) -> leaf_range l f ch r -> sums (D (colv l f)) (fun a => pr (l_lp l f ch r a) * h (colv l f) a) (I l f ch r)) ->
  possible m s e -> missing e (query (scope_of m)) vs ->
  exists L, leaf_expects D h m s e L /\
    expects D (rat_sample_with_evidence false W c st e) (tests h vs) (rat_class_of c p k m grp L 0 / rat_density c p k m s grp e).
Proof.
  intros leaves c p d k m s W st S R1. exists (fc_mat (k_fact st)). split; [exact (rs_partitions _ _ _ _ _ _ _ _ _ S)|].
  split; [exact (rs_explains _ _ _ _ _ _ _ _ _ S)|]. intros D h I e vs hpos HI He Mi.
  exists (fun i c r => pev (sc_h e I) m i c r). split.
  - exact (leaf_expects_ok D leaves m s (ra_reps c) e h I (rs_leaves _ _ _ _ _ _ _ _ _ S) hpos HI).
  - rewrite (rs_with_evidence _ _ _ _ _ _ _ _ _ S e He). rewrite (rs_one_root c p k m s st e R1).
    destruct S as [HL Hlf Hd HR Hm Hk E HW H1]. destruct (rat_ok_fine _ _ _ _ _ _ _ _ HL HR Hm Hk E) as [HF H3].
    pose proof (rat_law leaves c p d k m s st HL Hlf Hm Hk HR HF H3 E H1 Hd D W (Some e) e h I vs hpos HI HW He (or_introl eq_refl) Mi) as L.
    rewrite R1 in L. cbn [bsum] in L. unfold rat_prior in L. rewrite R1, softmax_one, Rplus_0_l, Rmult_1_l in L. rewrite R1. exact L.
Qed.
Print Assumptions C199_general.

Example C199_ex : forall l f ch r, In l (leaves_of (rleaf 4 2 3 (fun _ _ _ => 1/2))) -> leaf_range l f ch r ->
  sums bits (fun a => pr (l_lp l f ch r a) * (1 + a)) (3/2).
Proof.
  intros l f ch r [<-|[]] _. cbn -[bern_lp]. rewrite pr_bern_0, pr_bern_1 by lra. lra.
Qed.

(** ** C200: several root nodes, one repetition: sample_with_evidence draws the root node
    from the prior, not the posterior, then completes the row under that node *)
Theorem C200_several_roots : forall leaves c p d k m s W st, rat_sampler leaves c p d k m s W st ->
  exists grp, partitions (length (query (scope_of m))) (ra_reps c) (2 ^ ra_depth c) grp /\ explains st m s (rat_density c p k m s grp) /\
  (forall x, rat_density c p k m s grp x = bsum (ra_root c) (fun q => rat_prior c p q * rat_class c p k m s grp x q)) /\
  forall dom e vs y, (forall v, NoDup (dom v)) -> possible m s e -> missing e (query (scope_of m)) vs -> completes dom vs e y ->
  expects (fun v => DFin (dom v)) (rat_sample_with_evidence false W c st e) (tests (point y) vs)
    (bsum (ra_root c) (fun q => rat_prior c p q * (rat_class c p k m s grp y q / rat_class c p k m s grp e q))).
Proof.
  intros leaves c p d k m s W st S. exists (fc_mat (k_fact st)). split; [exact (rs_partitions _ _ _ _ _ _ _ _ _ S)|].
  split; [exact (rs_explains _ _ _ _ _ _ _ _ _ S)|]. split; [intros x; apply rat_dens|]. exact (rs_cond _ _ _ _ _ _ _ _ _ S).
Qed.
Print Assumptions C200_several_roots.

(** ** C201: sample_with_evidence of a RatSPN with several root nodes draws completions with
    probability exp (log_likelihood(completed) - log_likelihood(evidence)).  False *)
Definition tilt : nat -> nat -> nat -> R := fun _ ch _ => if Nat.eqb ch 0 then 3/4 else 1/4.
Lemma tilt_in f ch r : 0 < tilt f ch r < 1.
Proof. unfold tilt. destruct (Nat.eqb ch 0); lra. Qed.
Definition own_par : rat_par := mkRP (fun _ _ j o _ => if Nat.eqb j o then ln 3 else 0) (fun _ _ _ => 0) (fun _ _ _ _ => 0).
Definition two_cfg (root : nat) : rat_cfg := mkRat root 2 1 1 false None 2.
Definition ev0 : row := fun v => match v with O => Some 1 | _ => None end.
Definition ev1 : row := fun v => match v with O => Some 1 | S O => Some 1 | _ => None end.
Lemma ev_completes : completes (fun _ => [0; 1]) [1%nat] ev0 ev1.
Proof.
  split.
  - intros v [<-|[]]. exists 1. split; [reflexivity|right; now left].
  - intros [|[|v]] Hv; try reflexivity. exfalso. apply Hv. now left.
Qed.
Lemma ev_missing : missing ev0 [0; 1]%nat [1%nat].
Proof.
  split; [constructor; [intros []|constructor]|]. intros [|[|v]]; cbn; split; intros X; try (destruct X as [X|[]]; discriminate); auto.
  - destruct X; discriminate.
  - destruct X as [[X|[X|[]]] _]; discriminate.
Qed.
Lemma ev_possible x : x = ev0 \/ x = ev1 -> possible (rleaf 2 2 1 tilt) (mkShape 2 2 1) x.
Proof.
  intros Hx. apply rleaf_fin; [intros; apply tilt_in|]. intros [|[|v]] Hv; [right; right| |lia]; destruct Hx as [-> | ->]; cbn; auto.
Qed.
Lemma tilt_pr x f ch : x = ev0 \/ x = ev1 -> (f < 2)%nat -> pr (loglik (rleaf 2 2 1 tilt) x f ch 0%nat) = match x f with Some _ => tilt f ch 0 | None => 1 end.
Proof.
  intros Hx Hf. pose proof (tilt_in f ch 0) as T. assert (Hff : f = 0%nat \/ f = 1%nat) by lia.
  destruct Hx as [-> | ->], Hff as [-> | ->]; unfold loglik, rleaf; cbn [evalm]; unfold leaf_score; cbn -[bern_lp tilt]; try (apply pr_bern_1; lra).
  unfold pr. now rewrite exp_0.
Qed.
Lemma two_sampler root p : root = 1%nat \/ root = 2%nat -> exists st,
  rat_sampler [rleaf 2 2 1 tilt] (two_cfg root) p (plain_draw 2 1) Consecutive (rleaf 2 2 1 tilt) (mkShape 2 2 1) 2 st /\
  forall i o, fc_mat (k_fact st) 0 i o = entry [[0]; [1]]%nat i o.
Proof.
  intros Hr. assert (HF : rat_fine (two_cfg root) (rleaf 2 2 1 tilt)) by (repeat split; cbn; lia).
  assert (H3 : rat_no3 (two_cfg root) (rleaf 2 2 1 tilt)) by (right; cbn; split; intros [? ?]; lia).
  destruct (rleaf_sampler 2 2 root 2 1 1 false tilt p) as (st & S); [lia|lia|lia|exact HF|exact H3|now right|]. exists st. split; [exact S|].
  destruct S as [HL Hlf Hd HR Hm Hk E HW H1].
  destruct (rat_built _ _ p (plain_draw 2 1) _ _ _ HL Hm Hk HR HF H3) as (st' & E' & _ & Ef & _). pose proof E as E0. rewrite E0 in E'. injection E' as <-.
  change (Ok (mkFact 2 2 2 1 1 (fun _ i o => entry [[0]; [1]]%nat i o)) = Ok (k_fact st)) in Ef. injection Ef as <-. reflexivity.
Qed.
Definition two_class (p : rat_par) (x : row) (o : nat) : R :=
  bsum 2 (fun j => softmax 2 (fun i => rp_sum p 0 0 i o 0) j * (match x 0%nat with Some _ => tilt 0 j 0 | None => 1 end * match x 1%nat with Some _ => tilt 1 j 0 | None => 1 end)).
Lemma two_value root p x st q : root = 1%nat \/ root = 2%nat -> x = ev0 \/ x = ev1 -> (q < root)%nat -> (forall i o, fc_mat (k_fact st) 0 i o = entry [[0]; [1]]%nat i o) ->
  rat_class (two_cfg root) p Consecutive (rleaf 2 2 1 tilt) (mkShape 2 2 1) (fc_mat (k_fact st)) x q = two_class p x q.
Proof.
  intros Hr Hx Hq EM. unfold rat_class. cbn [ra_reps two_cfg bsum]. rewrite softmax_one, Rplus_0_l, Rmult_1_l. unfold two_class.
  cbn [ra_depth ra_outer ra_root ra_region two_cfg region rat_channels child Nat.eqb rleaf out_shape channels bern l_ch Nat.sub Nat.pow Nat.mul Nat.add].
  apply bsum_ext. intros j Hj. f_equal. unfold group_prob. cbn [scope_of rleaf bern l_scope query length seq bprod repetitions]. change (bidx 1 0) with 0%nat.
  rewrite !EM. change (MLeaf (mkLeaf _ _ _ _ _)) with (rleaf 2 2 1 tilt).
  rewrite !tilt_pr by (auto; lia). cbn. ring.
Qed.
Lemma S2 : forall i, softmax 2 (fun _ => 0) i = 1/2.
Proof. intros i. unfold softmax. cbn [bsum]. rewrite exp_0. lra. Qed.
Lemma own_class x o : (o < 2)%nat -> two_class own_par x o =
  bsum 2 (fun j => (if Nat.eqb j o then 3/4 else 1/4) * (match x 0%nat with Some _ => tilt 0 j 0 | None => 1 end * match x 1%nat with Some _ => tilt 1 j 0 | None => 1 end)).
Proof.
  intros Ho. unfold two_class. apply bsum_ext. intros j Hj. f_equal. unfold softmax. cbn [own_par rp_sum bsum].
  assert (Hoo : o = 0%nat \/ o = 1%nat) by lia. assert (Hjj : j = 0%nat \/ j = 1%nat) by lia.
  destruct Hoo as [-> | ->], Hjj as [-> | ->]; cbn [Nat.eqb]; rewrite exp_ln, exp_0 by lra; lra.
Qed.
Theorem C201_several_roots_refuted : exists leaves c p d k m s W st dom e vs y ty te ly le u,
  rat_sampler leaves c p d k m s W st /\ ra_root c = 2%nat /\ (forall v, NoDup (dom v)) /\ possible m s e /\ possible m s y /\
  missing e (query (scope_of m)) vs /\ completes dom vs e y /\
  stack_ll st y = Ok ty /\ nval ty 0 0 0 = FFin ly /\ stack_ll st e = Ok te /\ nval te 0 0 0 = FFin le /\
  expects (fun v => DFin (dom v)) (rat_sample_with_evidence false W c st e) (tests (point y) vs) u /\ u <> exp (ly - le).
Proof.
  destruct (two_sampler 2 own_par (or_intror eq_refl)) as (st & S & EM).
  destruct (rs_explains _ _ _ _ _ _ _ _ _ S ev0 (ev_possible ev0 (or_introl eq_refl))) as (te & Te & _ & Pe & Ve).
  destruct (rs_explains _ _ _ _ _ _ _ _ _ S ev1 (ev_possible ev1 (or_intror eq_refl))) as (ty & Ty & _ & Py & Vy).
  exists [rleaf 2 2 1 tilt], (two_cfg 2), own_par, (plain_draw 2 1), Consecutive, (rleaf 2 2 1 tilt), (mkShape 2 2 1), 2%nat, st, (fun _ => [0; 1]), ev0, [1%nat], ev1, ty, te.
  eexists. eexists. eexists. split; [exact S|]. split; [reflexivity|]. split; [intros _; apply bits_nodup|].
  split; [apply ev_possible; now left|]. split; [apply ev_possible; now right|]. split; [exact ev_missing|]. split; [exact ev_completes|].
  split; [exact Ty|]. split; [exact Vy|]. split; [exact Te|]. split; [exact Ve|]. split.
  - exact (rs_cond _ _ _ _ _ _ _ _ _ S (fun _ => [0; 1]) ev0 [1%nat] ev1 (fun _ => bits_nodup) (ev_possible ev0 (or_introl eq_refl)) ev_missing ev_completes).
  - unfold Rminus. rewrite exp_plus, exp_Ropp, !exp_ln by assumption. rewrite !rat_dens. unfold rat_prior. cbn [ra_root two_cfg bsum own_par rp_root].
    rewrite !S2. change (mkRat 2 2 1 1 false None 2) with (two_cfg 2).
    rewrite !(two_value 2 own_par) by (auto; lia). rewrite !own_class by lia. cbn. unfold tilt. cbn. lra.
Qed.
Print Assumptions C201_several_roots_refuted.

(** ** C202: RatSPN.sample(data=row) ignores the observed cells: the missing cells are drawn
    from the model's marginal over them *)
Theorem C202_sample_marginal : forall leaves c p d k m s W st, rat_sampler leaves c p d k m s W st ->
  exists grp, partitions (length (query (scope_of m))) (ra_reps c) (2 ^ ra_depth c) grp /\ explains st m s (rat_density c p k m s grp) /\
  forall dom e vs y, (forall v, NoDup (dom v)) -> possible m s e -> missing e (query (scope_of m)) vs -> completes dom vs e y ->
  expects (fun v => DFin (dom v)) (rat_sample false W c st e) (tests (point y) vs) (rat_density c p k m s grp (only vs y)).
Proof.
  intros leaves c p d k m s W st S. exists (fc_mat (k_fact st)). split; [exact (rs_partitions _ _ _ _ _ _ _ _ _ S)|].
  split; [exact (rs_explains _ _ _ _ _ _ _ _ _ S)|]. intros dom e vs y ND He Mi Hy.
  destruct S as [HL Hlf Hd HR Hm Hk E HW H1]. destruct (rat_ok_fine _ _ _ _ _ _ _ _ HL HR Hm Hk E) as [HF H3].
  exact (rat_law_none leaves c p d k m s st HL Hlf Hm Hk HR HF H3 E H1 Hd dom W e y vs ND HW He Mi Hy).
Qed.
Print Assumptions C202_sample_marginal.

(** ** C203: RatSPN.sample(data=row) completes the row given its observed cells.  False *)
Lemma zero_class x o : two_class zero_par x o =
  bsum 2 (fun j => 1/2 * (match x 0%nat with Some _ => tilt 0 j 0 | None => 1 end * match x 1%nat with Some _ => tilt 1 j 0 | None => 1 end)).
Proof. unfold two_class. apply bsum_ext. intros j Hj. f_equal. apply S2. Qed.
Theorem C203_sample_ignores_evidence_refuted : exists leaves c p d k m s W st dom e vs y ty te ly le u,
  rat_sampler leaves c p d k m s W st /\ ra_root c = 1%nat /\ (forall v, NoDup (dom v)) /\ possible m s e /\ possible m s y /\
  missing e (query (scope_of m)) vs /\ completes dom vs e y /\
  stack_ll st y = Ok ty /\ nval ty 0 0 0 = FFin ly /\ stack_ll st e = Ok te /\ nval te 0 0 0 = FFin le /\
  expects (fun v => DFin (dom v)) (rat_sample false W c st e) (tests (point y) vs) u /\ u <> exp (ly - le).
Proof.
  destruct (two_sampler 1 zero_par (or_introl eq_refl)) as (st & S & EM).
  destruct (rs_explains _ _ _ _ _ _ _ _ _ S ev0 (ev_possible ev0 (or_introl eq_refl))) as (te & Te & _ & Pe & Ve).
  destruct (rs_explains _ _ _ _ _ _ _ _ _ S ev1 (ev_possible ev1 (or_intror eq_refl))) as (ty & Ty & _ & Py & Vy).
  exists [rleaf 2 2 1 tilt], (two_cfg 1), zero_par, (plain_draw 2 1), Consecutive, (rleaf 2 2 1 tilt), (mkShape 2 2 1), 2%nat, st, (fun _ => [0; 1]), ev0, [1%nat], ev1, ty, te.
  eexists. eexists. exists (1/2). split; [exact S|]. split; [reflexivity|]. split; [intros _; apply bits_nodup|].
  split; [apply ev_possible; now left|]. split; [apply ev_possible; now right|]. split; [exact ev_missing|]. split; [exact ev_completes|].
  split; [exact Ty|]. split; [exact Vy|]. split; [exact Te|]. split; [exact Ve|]. split.
  - pose proof S as S0. destruct S as [HL Hlf Hd HR Hm Hk E HW H1]. destruct (rat_ok_fine _ _ _ _ _ _ _ _ HL HR Hm Hk E) as [HF H3].
    pose proof (rat_law_none _ _ _ _ _ _ _ st HL Hlf Hm Hk HR HF H3 E H1 Hd (fun _ => [0; 1]) 2 ev0 ev1 [1%nat] (fun _ => bits_nodup) HW (ev_possible ev0 (or_introl eq_refl)) ev_missing ev_completes) as L.
    match type of L with expects _ _ _ ?u => replace u with (1/2) in L; [exact L|] end.
    rewrite rs_one_root by reflexivity. symmetry.
    unfold rat_class. cbn [ra_reps two_cfg bsum]. rewrite softmax_one, Rplus_0_l, Rmult_1_l.
    cbn [ra_depth ra_outer ra_root ra_region two_cfg region rat_channels child Nat.eqb rleaf out_shape channels bern l_ch Nat.sub Nat.pow Nat.mul Nat.add bsum zero_par rp_sum].
    rewrite !S2. unfold group_prob. cbn [scope_of rleaf bern l_scope query length seq bprod repetitions]. change (bidx 1 0) with 0%nat.
    rewrite !EM. change (MLeaf (mkLeaf _ _ _ _ _)) with (rleaf 2 2 1 tilt).
    assert (T0 : forall ch, pr (loglik (rleaf 2 2 1 tilt) (only [1%nat] ev1) 0 ch 0) = 1).
    { intros ch. unfold loglik, rleaf; cbn [evalm]; unfold leaf_score; cbn -[bern_lp tilt]. unfold only. destruct (in_dec Nat.eq_dec 0%nat [1%nat]) as [[X|[]]|_]; [discriminate|]. unfold pr. apply exp_0. }
    assert (T1 : forall ch, pr (loglik (rleaf 2 2 1 tilt) (only [1%nat] ev1) 1 ch 0) = tilt 1 ch 0).
    { intros ch. pose proof (tilt_in 1 ch 0). unfold loglik, rleaf; cbn [evalm]; unfold leaf_score; cbn -[bern_lp tilt]. unfold only. destruct (in_dec Nat.eq_dec 1%nat [1%nat]) as [_|X]; [|exfalso; apply X; now left]. cbn -[bern_lp tilt]. apply pr_bern_1; lra. }
    rewrite !T0, !T1. cbn. unfold tilt. cbn. lra.
  - unfold Rminus. rewrite exp_plus, exp_Ropp, !exp_ln by assumption. rewrite !rs_one_root by reflexivity.
    rewrite !(two_value 1 zero_par) by (auto; lia). rewrite !zero_class. cbn. unfold tilt. cbn. lra.
Qed.
Print Assumptions C203_sample_ignores_evidence_refuted.
Lemma agree_end ops ds s de : goods ops ds s de -> agree ds s -> agree de (shs ops s).
Proof. induction 1 as [ds s|o rest ds s ds' de Ed Ag Hf Hm Ag' _ IH]; intros A; cbn [shs]; [exact A|]. exact (IH Ag'). Qed.
Section Ein.
Variables (leaves : list module) (c : ein_cfg) (p : ein_par) (d : draw) (m : module) (s : shape) (W : nat) (st : stack).
Hypothesis S : ein_sampler leaves c p d m s W st.
Let HL := es_leaves _ _ _ _ _ _ _ _ S. Let Hlf := es_leafy _ _ _ _ _ _ _ _ S. Let Hd := es_draw _ _ _ _ _ _ _ _ S.
Let E := es_made _ _ _ _ _ _ _ _ S. Let HW := es_cols _ _ _ _ _ _ _ _ S. Let H1 := es_one _ _ _ _ _ _ _ _ S.
Let HF : ein_fine c m := ein_ok_fine _ _ _ _ _ _ HL _ E.
Notation grp := (fc_mat (k_fact st)).
Notation dens x := (ein_density c p m s grp x).
Notation cls x q := (ein_class_density c p m s grp x q).
Notation nf := (length (query (scope_of m))).
Lemma es_partitions : partitions nf (ei_reps c) (2 ^ ein_fdepth c nf) grp.
Proof.
  destruct Hd as [Hs Hp]. destruct (ein_built leaves c p d m s HL HF) as (st' & de & E' & _ & Ef & _). pose proof E as E0. rewrite E0 in E'. injection E' as <-.
  intros r i Hr Hi. destruct (owner_exists _ _ _ _ _ _ _ _ Hs Hp Ef r i Hi) as (g & Hg & Eg).
  exists g. split; [exact Hg|]. split; [exact Eg|]. intros h Eh. exact (owner_unique _ _ _ _ _ _ _ _ Hs Hp Ef r i h g Eh Eg).
Qed.
Lemma es_explains : explains st m s (ein_density c p m s grp).
Proof. intros x Hx. exact (ein_value leaves c p d m s HL st x E Hx). Qed.
Lemma es_leaf : k_leaf st = m.
Proof. destruct (ein_built leaves c p d m s HL HF) as (st' & de & E' & El & _). pose proof E as E0. rewrite E0 in E'. injection E' as <-. exact El. Qed.
Lemma es_valid : validate [1%nat; features (stack_shape st)] (channels (stack_shape st)) (ei_reps c) init_ctx = true.
Proof.
  destruct (ein_built leaves c p d m s HL HF) as (st' & de & E' & El & Ef & G & Ea). pose proof E as E0. rewrite E0 in E'. injection E' as <-.
  destruct (ein_all_does leaves c p m s HL HF) as (_ & Esh & _).
  destruct (goods_run _ _ _ _ G) as (ls & Ea' & Et & _). rewrite Ea in Ea'. injection Ea' as <-.
  destruct (agree_end _ _ _ _ G (conj eq_refl eq_refl)) as [A B]. rewrite Esh in A, B. cbn in A, B.
  unfold stack_shape. rewrite (fact_shape_eq m _ (ei_reps c) d _ Ef), ein_base_shape, Et, A, B.
  assert (F4 : (1 <= ei_reps c)%nat) by apply HF. unfold validate. change (c_rep init_ctx) with 0%nat. rewrite (proj2 (Nat.ltb_lt 0 (ei_reps c)) F4), (proj2 (Nat.leb_le 1 (ei_reps c)) F4). reflexivity.
Qed.
Lemma es_sample rows e : possible m s e -> einet_sample false W c st rows e =
  stack_sample false W (ei_classes c) st (if partial_evidence W rows then Some e else None) e.
Proof.
  intros He. unfold einet_sample. rewrite es_valid. destruct (partial_evidence W rows); [|reflexivity].
  destruct (es_explains e He) as (t & -> & _). rewrite es_leaf.
  replace (forallb _ _) with true; [reflexivity|]. symmetry. apply forallb_forall. intros v Hv. apply Nat.ltb_lt. now apply HW.
Qed.
(** a batch without partial evidence: all cells missing or all observed *)
Lemma no_partial rows e : In e rows -> partial_evidence W rows = false ->
  (forall v, vars m v -> e v = None) \/ (forall v, vars m v -> e v <> None).
Proof.
  intros He. unfold partial_evidence. rewrite andb_false_iff. intros [N|N].
  - right. intros v Hv Z. enough (X : existsb (fun x : row => existsb (fun v => isnone (x v)) (seq 0 W)) rows = true) by congruence.
    apply existsb_exists. exists e. split; [exact He|]. apply existsb_exists. exists v. split; [apply in_seq; specialize (HW v Hv); lia|]. now rewrite Z.
  - left. intros v Hv. destruct (e v) as [a|] eqn:Z; [|reflexivity].
    enough (X : existsb (fun x : row => existsb (fun v => negb (isnone (x v))) (seq 0 W)) rows = true) by congruence.
    apply existsb_exists. exists e. split; [exact He|]. apply existsb_exists. exists v. split; [apply in_seq; specialize (HW v Hv); lia|]. now rewrite Z.
Qed.
Lemma es_one_root x : ei_classes c = 1%nat -> dens x = cls x 0.
Proof. intros R1. rewrite ein_dens. rewrite R1. cbn [bsum]. unfold ein_prior. rewrite R1, softmax_one. ring. Qed.
Lemma es_cls_pos e q : possible m s e -> (q < ei_classes c)%nat -> 0 < cls e q.
Proof.
  intros He Hq. destruct (ein_setup leaves c p d m s st HL E H1) as (la & El & Ef & _ & Ea & Esh & _).
  destruct (ein_good leaves c p d m s st HL E) as (de & G). destruct (goods_run _ _ _ _ G) as (ls & _ & _ & Hr).
  assert (F4 : (0 < ei_reps c)%nat) by apply HF.
  destruct (fact_holds m s (ein_fdepth c nf) (ei_reps c) d (k_fact st) (leaves_built _ _ _ _ HL) (lo_shape _ _ _ _ HL) (lo_one _ _ _ _ HL)
              (lo_reps _ _ _ _ HL) F4 Ef e He) as (t0 & _ & H0).
  destruct (Hr t0 _ H0) as (t & _ & (_ & Hv)). rewrite Esh in Hv. destruct (Hv 0%nat q 0%nat) as (_ & Q & _); [repeat split; cbn; lia|].
  rewrite (ein_pre_sem leaves c p d m s st HL E H1) in Q by exact Hq. exact Q.
Qed.
Lemma local_same (x y : row) : (forall v, vars m v -> x v = y v) -> forall q, (q < ei_classes c)%nat -> cls x q = cls y q.
Proof.
  intros H q Hq. unfold ein_class_density.
  destruct (ein_setup leaves c p d m s st HL E H1) as (la & El & Ef & _ & _ & Esh & _).
  rewrite <- !(ein_pre_sem leaves c p d m s st HL E H1) by exact Hq. destruct (ein_good leaves c p d m s st HL E) as (de & G).
  apply (sems_local _ _ _ _ _ _ G); [|rewrite Esh; repeat split; cbn; lia]. intros f ch r IN.
  unfold group_prob. apply bprod_ext. intros i Hi. destruct (fc_mat (k_fact st) r i f); [|reflexivity].
  pose proof (leaves_built _ _ _ _ HL) as Bm. pose proof (built_wf m Bm) as Wf.
  assert (IN2 : in_shape s i ch (bidx (repetitions s) r)).
  { destruct IN as (_ & Ic & Ir). cbn in Ic, Ir. destruct (ll_shape_spec m s Wf (lo_shape _ _ _ _ HL)) as (E1 & E2 & E3).
    split; [rewrite E1, (lo_one _ _ _ _ HL); exact Hi|split; [now rewrite E2|]].
    unfold bidx. destruct (Nat.eqb_spec (repetitions s) 1) as [->|N]; [lia|]. destruct (lo_reps _ _ _ _ HL) as [->|]; [exact Ir|contradiction]. }
  change (prob m x i ch (bidx (repetitions s) r) = prob m y i ch (bidx (repetitions s) r)).
  apply (prob_local m Wf (lo_aligned _ _ _ _ HL)); [exact (in_shape_pos m s _ _ _ Wf (lo_shape _ _ _ _ HL) IN2)|].
  intros v Hv. apply H. apply (wf_union m (wf_wf1 m Wf)). exists i. split; [|exact Hv].
  apply (in_shape_pos m s _ _ _ Wf (lo_shape _ _ _ _ HL) IN2).
Qed.
Lemma es_law rows dom e vs y : (forall v, NoDup (dom v)) -> In e rows -> possible m s e -> missing e (query (scope_of m)) vs -> completes dom vs e y ->
  expects (fun v => DFin (dom v)) (einet_sample false W c st rows e) (tests (point y) vs) (bsum (ei_classes c) (fun q => ein_prior c p q * (cls y q / cls e q))).
Proof.
  intros ND Hin He Mi Hy. rewrite es_sample by exact He. destruct (partial_evidence W rows) eqn:PE.
  - exact (ein_law_fin leaves c p d m s st HL Hlf E H1 Hd dom W (Some e) e y vs ND HW He (or_introl eq_refl) Mi Hy).
  - destruct (no_partial rows e Hin PE) as [A|A].
    + exact (ein_law_fin leaves c p d m s st HL Hlf E H1 Hd dom W None e y vs ND HW He (or_intror (conj eq_refl A)) Mi Hy).
    + pose proof (ein_law_none leaves c p d m s st HL Hlf E H1 Hd dom W e y vs ND HW He Mi Hy) as L. rewrite ein_dens in L.
      assert (V : vs = []).
      { destruct vs as [|v vs]; [reflexivity|]. exfalso. destruct Mi as [_ Mi]. destruct (proj1 (Mi v) (or_introl eq_refl)) as [I1 I2]. exact (A v I1 I2). }
      subst vs. erewrite bsum_ext; [exact L|]. intros q Hq. cbn beta. f_equal.
      rewrite (local_same y e) by (auto; intros v _; apply Hy; intros []).
      rewrite (ein_class_one leaves c p d m s st HL Hlf E H1 Hd (only [] y) q (fun v _ => eq_refl) Hq).
      field. apply Rgt_not_eq. now apply es_cls_pos.
Qed.
End Ein.

(** ** C204: Einet.sample(data=batch), one class: every row of the batch is completed given
    its observed cells, whatever the other rows hold: all missing (the model's
    distribution), partly observed (the conditional) or complete (unchanged) *)
Theorem C204_einet_conditional : forall leaves c p d m s W st, ein_sampler leaves c p d m s W st -> ei_classes c = 1%nat ->
  exists grp, partitions (length (query (scope_of m))) (ei_reps c) (2 ^ ein_fdepth c (length (query (scope_of m)))) grp /\ explains st m s (ein_density c p m s grp) /\
  forall dom rows e vs y, (forall v, NoDup (dom v)) -> In e rows -> possible m s e -> missing e (query (scope_of m)) vs -> completes dom vs e y ->
  expects (fun v => DFin (dom v)) (einet_sample false W c st rows e) (tests (point y) vs)
    (ein_density c p m s grp y / ein_density c p m s grp e).
Proof.
  intros leaves c p d m s W st S R1. exists (fc_mat (k_fact st)). split; [exact (es_partitions _ _ _ _ _ _ _ _ S)|].
  split; [exact (es_explains _ _ _ _ _ _ _ _ S)|]. intros dom rows e vs y ND Hin He Mi Hy.
  pose proof (es_law _ _ _ _ _ _ _ _ S rows dom e vs y ND Hin He Mi Hy) as L.
  rewrite R1 in L. cbn [bsum] in L. unfold ein_prior in L. rewrite R1, softmax_one, Rplus_0_l, Rmult_1_l in L. now rewrite !es_one_root by exact R1.
Qed.
Print Assumptions C204_einet_conditional.
Lemma ein_rleaf n ch reps t b depth classes sums q p : (0 < n)%nat -> (0 < ch)%nat ->
  let c := mkEin classes sums ch depth reps t b in let m := rleaf n ch reps q in ein_fine c m -> classes = 1%nat \/ reps = 1%nat ->
  exists st, ein_sampler [m] c p (plain_draw n (ein_fdepth c n)) m (mkShape n ch reps) n st.
Proof.
  intros Hn Hc c m HF H1. assert (Hr : (0 < reps)%nat) by (destruct HF as (_ & _ & _ & H & _); exact H).
  assert (HL := rleaf_ok n ch reps q Hn Hc Hr).
  destruct (ein_built [m] c p (plain_draw n (ein_fdepth c n)) m (mkShape n ch reps) HL HF) as (st & de & E & _).
  exists st. constructor; try assumption; [apply rleaf_leafy| |apply rleaf_cols; lia].
  cbn [m rleaf scope_of bern l_scope query]. rewrite seq_length. apply plain_ok.
Qed.
(** three repetitions, both layer types and structures *)
Example C204_ex : forall t b, exists st,
  ein_sampler [rleaf 5 2 3 (fun _ _ _ => 1/2)] (mkEin 1 3 2 1 3 t b) zero_ep (plain_draw 5 (ein_fdepth (mkEin 1 3 2 1 3 t b) 5)) (rleaf 5 2 3 (fun _ _ _ => 1/2)) (mkShape 5 2 3) 5 st.
Proof. intros t b. apply ein_rleaf; [lia|lia| |now left]. unfold ein_fine. cbn. lia. Qed.

(** ** C205: Einet, several classes, one repetition: on a batch that is partly observed the
    class is drawn from the prior and the row completed under it *)
Theorem C205_einet_classes : forall leaves c p d m s W st, ein_sampler leaves c p d m s W st ->
  exists grp, partitions (length (query (scope_of m))) (ei_reps c) (2 ^ ein_fdepth c (length (query (scope_of m)))) grp /\ explains st m s (ein_density c p m s grp) /\
  (forall x, ein_density c p m s grp x = bsum (ei_classes c) (fun q => ein_prior c p q * ein_class_density c p m s grp x q)) /\
  (forall dom rows e vs y, (forall v, NoDup (dom v)) -> In e rows -> possible m s e -> missing e (query (scope_of m)) vs -> completes dom vs e y ->
   expects (fun v => DFin (dom v)) (einet_sample false W c st rows e) (tests (point y) vs)
     (bsum (ei_classes c) (fun q => ein_prior c p q * (ein_class_density c p m s grp y q / ein_class_density c p m s grp e q)))) /\
  (forall dom rows x vs y, (forall v, NoDup (dom v)) -> In x rows -> (forall v, vars m v -> x v = None) -> NoDup vs -> (forall v, In v vs <-> vars m v) -> completes dom vs x y ->
   expects (fun v => DFin (dom v)) (einet_sample false W c st rows x) (tests (point y) vs) (ein_density c p m s grp y)).
Proof.
  intros leaves c p d m s W st S. exists (fc_mat (k_fact st)). split; [exact (es_partitions _ _ _ _ _ _ _ _ S)|].
  split; [exact (es_explains _ _ _ _ _ _ _ _ S)|]. split; [intros x; apply ein_dens|]. split; [exact (fun dom rows e vs y => es_law _ _ _ _ _ _ _ _ S rows dom e vs y)|].
  intros dom rows x vs y ND Hin Hx NDv Hvs Hy. pose proof (es_leaves _ _ _ _ _ _ _ _ S) as HL.
  assert (Mi : missing x (query (scope_of m)) vs).
  { split; [exact NDv|]. intros v. rewrite Hvs. unfold vars. split; [intros Hv; split; [exact Hv|now apply Hx]|intros [Hv _]; exact Hv]. }
  assert (ONE : forall q, (q < ei_classes c)%nat -> ein_class_density c p m s (fc_mat (k_fact st)) x q = 1).
  { intros q Hq. exact (ein_class_one leaves c p d m s st HL (es_leafy _ _ _ _ _ _ _ _ S) (es_made _ _ _ _ _ _ _ _ S) (es_one _ _ _ _ _ _ _ _ S) (es_draw _ _ _ _ _ _ _ _ S) x q Hx Hq). }
  pose proof (es_law _ _ _ _ _ _ _ _ S rows dom x vs y ND Hin (possible_missing _ _ _ _ _ HL Hx) Mi Hy) as L.
  rewrite ein_dens. erewrite bsum_ext; [exact L|]. intros q Hq. cbn beta. rewrite ONE by exact Hq. unfold Rdiv. rewrite Rinv_1. ring.
Qed.
Print Assumptions C205_einet_classes.
Example C205_ex : forall t b, exists st,
  ein_sampler [rleaf 5 2 1 (fun _ _ _ => 1/2)] (mkEin 2 3 2 1 1 t b) zero_ep (plain_draw 5 (ein_fdepth (mkEin 2 3 2 1 1 t b) 5)) (rleaf 5 2 1 (fun _ _ _ => 1/2)) (mkShape 5 2 1) 5 st.
Proof. intros t b. apply ein_rleaf; [lia|lia| |now right]. unfold ein_fine. cbn. lia. Qed.

(** ** C206: sample() and sample_with_evidence() of RatSPN and Einet, mpe or not, leave
    observed cells and cells outside the model's scope as they are, and ordinary sampling
    fills every cell of the scope *)
Theorem C206_rat_keeps : forall leaves c p d k m s W st, rat_sampler leaves c p d k m s W st ->
  (forall mpe e y, outcome (rat_sample mpe W c st e) y \/ outcome (rat_sample_with_evidence mpe W c st e) y ->
     (forall v, e v <> None -> y v = e v) /\ (forall v, ~ vars m v -> y v = e v)) /\
  (forall e y, possible m s e -> outcome (rat_sample false W c st e) y \/ outcome (rat_sample_with_evidence false W c st e) y ->
     forall v, vars m v -> y v <> None).
Proof.
  intros leaves c p d k m s W st S. pose proof (rs_leaf _ _ _ _ _ _ _ _ _ S) as EL. pose proof S as S0. destruct S as [HL Hlf Hd HR Hm Hk E HW H1].
  destruct (rat_ok_fine _ _ _ _ _ _ _ _ HL HR Hm Hk E) as [HF H3]. pose proof (leaves_built _ _ _ _ HL) as Bm. split.
  - intros mpe e y H.
    assert (X : exists ev, outcome (stack_sample mpe W (ra_root c) st ev e) y).
    { destruct H as [H|H]; [exists None; exact H|]. unfold rat_sample_with_evidence in H. destruct (stack_ll st e); [|inversion H].
      destruct (forallb _ _); [exists (Some e); exact H|inversion H]. }
    destruct X as (ev & X). destruct (stack_keep mpe W (ra_root c) st ev e y) as [A B]; [now rewrite EL|exact X|]. rewrite EL in B.
    split; [exact A|]. exact (B HW).
  - intros e y He H v Hv.
    assert (X : exists ev, (ev = Some e \/ ev = None) /\ outcome (stack_sample false W (ra_root c) st ev e) y).
    { destruct H as [H|H]; [exists None; auto|]. unfold rat_sample_with_evidence in H. destruct (stack_ll st e); [|inversion H].
      destruct (forallb _ _); [exists (Some e); auto|inversion H]. }
    destruct X as (ev & Hev & X).
    destruct (rat_setup leaves c p d k m s st HL Hm Hk HR HF H3 E H1) as (la & El & Ef & Hroute & Ea & Esh & Hlay).
    assert (G : forall q, (q < ra_root c)%nat -> good (shs (rat_pre c p k) (base_shape m (ra_depth c) (ra_reps c))) (mkCtx [q] [true] 0)).
    { intros q Hq. rewrite Esh. split; [reflexivity|]. split; [reflexivity|]. split; [cbn; lia|]. cbn. intros f Hf. now replace f with 0%nat by lia. }
    unfold stack_sample in X. destruct Hlay as [[N Elay]|(N & Er & Elay)].
    + destruct (Nat.ltb_spec 1 (ra_root c)); [lia|]. rewrite Elay in X.
      exact (from_fill W leaves m s (ra_depth c) (ra_reps c) d st (rat_pre c p k) la init_ctx ev e y HL Hlf HR Hd El Ef Hroute Ea (G 0%nat ltac:(lia)) HW He Hev X v Hv).
    + destruct (Nat.ltb_spec 1 (ra_root c)); [|lia]. rewrite Er, Elay in X. cbn [of_result pbind] in X. apply outcome_bind in X. destruct X as (q & Hq & X).
      exact (from_fill W leaves m s (ra_depth c) (ra_reps c) d st (rat_pre c p k) la (mkCtx [q] [true] 0) ev e y HL Hlf HR Hd El Ef Hroute Ea (G q (logits_outcome _ _ _ Hq)) HW He Hev X v Hv).
Qed.
Print Assumptions C206_rat_keeps.
Theorem C206_einet_keeps : forall leaves c p d m s W st, ein_sampler leaves c p d m s W st ->
  (forall mpe rows e y, outcome (einet_sample mpe W c st rows e) y ->
     (forall v, e v <> None -> y v = e v) /\ (forall v, ~ vars m v -> y v = e v)) /\
  (forall rows e y, possible m s e -> outcome (einet_sample false W c st rows e) y -> forall v, vars m v -> y v <> None).
Proof.
  intros leaves c p d m s W st S. pose proof (es_leaf _ _ _ _ _ _ _ _ S) as EL. pose proof S as S0. destruct S as [HL Hlf Hd E HW H1].
  pose proof (ein_ok_fine _ _ _ _ _ _ HL _ E) as HF. assert (HR : (0 < ei_reps c)%nat) by apply HF. pose proof (leaves_built _ _ _ _ HL) as Bm.
  assert (Y : forall mpe rows e y, outcome (einet_sample mpe W c st rows e) y ->
    exists ev, (ev = Some e \/ ev = None) /\ outcome (stack_sample mpe W (ei_classes c) st ev e) y).
  { intros mpe rows e y H. unfold einet_sample in H. destruct (validate _ _ _ _); [|inversion H].
    destruct (partial_evidence W rows); [|exists None; auto]. destruct (stack_ll st e); [|inversion H].
    destruct (forallb _ _); [exists (Some e); auto|inversion H]. }
  split.
  - intros mpe rows e y H. destruct (Y _ _ _ _ H) as (ev & _ & X). destruct (stack_keep mpe W (ei_classes c) st ev e y) as [A B]; [now rewrite EL|exact X|]. rewrite EL in B.
    split; [exact A|]. exact (B HW).
  - intros rows e y He H v Hv. destruct (Y _ _ _ _ H) as (ev & Hev & X).
    destruct (ein_setup leaves c p d m s st HL E H1) as (la & El & Ef & Hroute & Ea & Esh & Hlay).
    assert (G : forall q, (q < ei_classes c)%nat -> good (shs (ein_pre c p m) (base_shape m (ein_fdepth c (length (query (scope_of m)))) (ei_reps c))) (mkCtx [q] [true] 0)).
    { intros q Hq. rewrite Esh. split; [reflexivity|]. split; [reflexivity|]. split; [cbn; lia|]. cbn. intros f Hf. now replace f with 0%nat by lia. }
    unfold stack_sample in X. destruct Hlay as [[N Elay]|(N & Er & Elay)].
    + destruct (Nat.ltb_spec 1 (ei_classes c)); [lia|]. rewrite Elay in X.
      exact (from_fill W leaves m s _ (ei_reps c) d st (ein_pre c p m) la init_ctx ev e y HL Hlf HR Hd El Ef Hroute Ea (G 0%nat ltac:(lia)) HW He Hev X v Hv).
    + destruct (Nat.ltb_spec 1 (ei_classes c)); [|lia]. rewrite Er, Elay in X. cbn [of_result pbind] in X. apply outcome_bind in X. destruct X as (q & Hq & X).
      exact (from_fill W leaves m s _ (ei_reps c) d st (ein_pre c p m) la (mkCtx [q] [true] 0) ev e y HL Hlf HR Hd El Ef Hroute Ea (G q (logits_outcome _ _ _ Hq)) HW He Hev X v Hv).
Qed.
Print Assumptions C206_einet_keeps.
Lemma lsum_some (l : list R) g : lsumR (map g l) <> 0 -> exists a, In a l /\ g a <> 0.
Proof.
  induction l as [|a l IH]; cbn; [lra|]. intros H. destruct (Req_EM_T (g a) 0) as [Z|N]; [|exists a; auto].
  destruct IH as (b & Hb & N); [lra|]. exists b; auto.
Qed.
Lemma expects_some {A} dom (p : prog A) g u : expects (fun v => DFin (dom v)) p g u -> u <> 0 -> exists a, outcome p a /\ g a <> 0.
Proof.
  revert u. induction p as [a| |n w k IH|l f c r k IH]; intros u H Hu; cbn [expects] in H.
  - subst u. exists a. split; [constructor|exact Hu].
  - contradiction.
  - destruct H as (h & Hh & E). rewrite <- E in Hu. destruct (bsum_nonzero n w h Hu) as (i & Hi & Hw & Hi').
    destruct (IH i (h i) (Hh i Hi Hw) Hi') as (a & Ha & Hg). exists a. split; [eapply o_choose; eauto|exact Hg].
  - destruct H as (h & Hh & E). cbn [sums] in E. rewrite <- E in Hu. destruct (lsum_some _ _ Hu) as (a & _ & N).
    destruct (IH a (h a) (Hh a)) as (b & Hb & Hg); [intros Z; apply N; rewrite Z; ring|]. exists b. split; [eapply o_draw; eauto|exact Hg].
Qed.
(** outcomes exist: a completion of positive probability is an outcome (C197) *)
Example C206_ex : exists st y,
  rat_sampler [rleaf 2 2 1 tilt] (two_cfg 1) zero_par (plain_draw 2 1) Consecutive (rleaf 2 2 1 tilt) (mkShape 2 2 1) 2 st /\
  outcome (rat_sample_with_evidence false 2 (two_cfg 1) st ev0) y /\ y 1%nat = Some 1.
Proof.
  destruct (two_sampler 1 zero_par (or_introl eq_refl)) as (st & S & EM). exists st.
  pose proof (rs_cond _ _ _ _ _ _ _ _ _ S (fun _ => [0; 1]) ev0 [1%nat] ev1 (fun _ => bits_nodup) (ev_possible ev0 (or_introl eq_refl)) ev_missing ev_completes) as L.
  cbn [ra_root two_cfg bsum] in L. rewrite !(two_value 1 zero_par) in L by (auto; lia). rewrite !zero_class in L. unfold rat_prior in L. cbn [ra_root two_cfg] in L. rewrite softmax_one in L.
  destruct (expects_some _ _ _ _ L) as (y & Hy & T).
  { cbn. unfold tilt. cbn. lra. }
  exists y. split; [exact S|]. split; [exact Hy|]. cbn in T. unfold cell in T. destruct (y 1%nat) as [a|]; [|lra].
  unfold point in T. cbn in T. destruct (Req_EM_T a 1) as [->|]; [reflexivity|lra].
Qed.

(** ** C207: a RatSPN whose leaves have one repetition can be sampled whenever it can
    evaluate rows.  False: log_likelihood broadcasts the leaf's repetition over the model's
    repetitions (C182), sampling one root raises as soon as another repetition is drawn *)
Theorem C207_single_repetition_leaf_refuted : forall l c p d k s st W x, let m := MLeaf l in
  leaves_ok [m] m s (ra_reps c) -> l_rep l = 1%nat -> (2 <= ra_reps c)%nat -> ra_root c = 1%nat ->
  draw_ok (length (query (scope_of m))) (ra_depth c) d -> rat_mode c = Ok (k, 2%nat) -> k <> ByIndex ->
  mk_rat [m] c p d = Ok st -> possible m s x ->
  (exists t v, stack_ll st x = Ok t /\ nval t 0 0 0 = FFin v) /\ may_raise (rat_sample false W c st x).
Proof.
  intros l c p d k s st W x m HL Hl HR2 Hroot Hd Hm Hk E Hx. assert (HR : (1 <= ra_reps c)%nat) by lia.
  destruct (rat_ok_fine _ _ _ _ _ _ _ _ HL HR Hm Hk E) as [HF H3]. split.
  - destruct (rat_value [m] c p d k m s HL Hm Hk HR st x HF H3 E Hx) as (t & E1 & _ & _ & E2). eauto.
  - exact (rat_raises l c p d k s st W x HL Hl HR2 Hroot Hd Hm Hk HF H3 E).
Qed.
Print Assumptions C207_single_repetition_leaf_refuted.
Example C207_ex : exists st, mk_rat [ex_leaf 4 2 (fun _ _ => 1/2)] (mkRat 1 2 3 2 true None 2) zero_par (plain_draw 4 2) = Ok st /\
  (exists t v, stack_ll st (fun _ => Some 1) = Ok t /\ nval t 0 0 0 = FFin v) /\ may_raise (rat_sample false 4 (mkRat 1 2 3 2 true None 2) st (fun _ => None)).
Proof.
  assert (HL := ex_leaves_ok 4 2 (fun _ _ => 1/2) 3 ltac:(lia) ltac:(lia)).
  destruct (rat_built [ex_leaf 4 2 (fun _ _ => 1/2)] (mkRat 1 2 3 2 true None 2) zero_par (plain_draw 4 2) Consecutive (ex_leaf 4 2 (fun _ _ => 1/2)) (mkShape 4 2 1) HL)
    as (st & E & _); [reflexivity|discriminate|cbn; lia|repeat split; cbn; lia|now left|].
  exists st. split; [exact E|].
  assert (X : forall x, possible (ex_leaf 4 2 (fun _ _ => 1/2)) (mkShape 4 2 1) x -> _) by
    (exact (fun x => C207_single_repetition_leaf_refuted (bern (seq 0 4) 2 1 (fun _ _ _ => 1/2)) (mkRat 1 2 3 2 true None 2) zero_par (plain_draw 4 2) Consecutive (mkShape 4 2 1) st 4 x
      HL eq_refl ltac:(cbn; lia) eq_refl (plain_ok 4 2) eq_refl ltac:(discriminate) E)).
  split.
  - refine (proj1 (X _ (ex_fin 4 2 _ (fun _ => Some 1) _ _))); [intros; lra|]. intros v _. auto.
  - refine (proj2 (X _ (ex_fin 4 2 _ (fun _ => None) _ _))); [intros; lra|]. intros v _. auto.
Qed.
