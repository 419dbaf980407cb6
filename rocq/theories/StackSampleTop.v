(** Sampling from stacks: the law of a row drawn with or without evidence. *)
From Coq Require Import List Arith Bool Reals Lia Lra Permutation FunctionalExtensionality.
From Verif Require Import Base ScopeModel ScopeProofs CircuitModel CircuitSpec CircuitBasics CircuitEval Integral CircuitMarg CircuitProps
  SampleModel SampleSpec SampleExp SampleProofs SampleTop SampleApi EmModel SplitModel SplitProofs LayerModel LayerSpec LayerProofs FactorModel FactorProofs FactorTop
  StackModel StackSpec StackProofs StackDist StackTop StackRat StackNan StackRatTop StackEinSpec StackEin StackEinTop StackPostModel StackPostSpec StackPost StackPostTop
  StackSampleModel StackSampleStep StackSamplePair StackSampleLeaf StackSampleSpec StackSampleBase.
Import ListNotations.
Local Open Scope R_scope.

(** one mixing layer on top of layers of other kinds *)
Lemma routes_mix ops s de co nr lg : goods (ops ++ [OMix co nr lg]) s s de -> no_mix ops -> (0 < features s)%nat ->
  channels (shs ops s) = 1%nat \/ repetitions (shs ops s) = 1%nat -> routes (ops ++ [OMix co nr lg]) s s.
Proof.
  intros G Hn HF H1. destruct (goods_app_inv _ _ _ _ _ G) as (dm & G1 & G2). destruct (routes_plain ops s dm G1 Hn HF) as (A & -> & C & X).
  apply X. inversion G2 as [|o' rest' ds_ s_ ds' de' Ed Ag Hf Hm Ag' G']; subst. econstructor; eauto. constructor.
Qed.

(** finite domains: the expected point test of a leaf is its probability *)
Lemma point_leaf (dom : nat -> list R) m e y vs : built m -> aligned m -> (forall v, NoDup (dom v)) -> missing e (query (scope_of m)) vs -> completes dom vs e y ->
  forall i c r, pos m i c r ->
  pev (sc_h e (fun l f c r => lsumR (map (fun a => pr (l_lp l f c r a) * point y (colv l f) a) (dom (colv l f))))) m i c r = prob m y i c r.
Proof.
  intros Bm Am ND [_ Mi] [Y1 Y2] i c r HP. rewrite prob_pev. pose proof (built_wf m Bm) as Wf. apply pev_local; auto.
  intros l g c' r' Hl Hv. unfold sc_h, leaf_score. fold (colv l g). set (v := colv l g) in *.
  destruct (in_dec Nat.eq_dec v vs) as [Iv|Nv].
  - rewrite (proj2 (proj1 (Mi v) Iv)). destruct (Y1 v Iv) as (b & Eb & Hb). rewrite Eb.
    rewrite (map_ext _ (fun a => (if Req_EM_T a b then 1 else 0) * pr (l_lp l g c' r' a))).
    + rewrite (lsum_point (dom v) b (fun a => pr (l_lp l g c' r' a)) (ND v) Hb). apply lfrom_pr.
    + intros a. unfold point. rewrite Eb. ring.
  - rewrite (Y2 v Nv). destruct (e v) as [a|] eqn:Ev; [reflexivity|]. exfalso. apply Nv, Mi. split; [|exact Ev].
    apply (wf_union m (wf_wf1 m Wf)). exists i. split; [apply HP|exact Hv].
Qed.

Section Draw.
Variables (leaves : list module) (m : module) (s : shape) (depth reps n : nat) (d : draw) (st : stack) (pre : list op) (la : list layer) (rl : nat -> R).
Notation bs := (base_shape m depth reps).
Hypothesis (HL : leaves_ok leaves m s reps) (Hlf : leafy reps leaves) (HR : (0 < reps)%nat) (Hdraw : draw_ok (length (query (scope_of m))) depth d).
Hypothesis (El : k_leaf st = m)
  (Ef : mk_factorize (length (query (scope_of m))) (length (query (scope_of m))) (channels (out_shape m)) depth reps (d_sizes d) (d_perms d) = Ok (k_fact st)).
Hypothesis (Hroute : routes pre bs bs) (Ea : assemble bs pre = Ok la) (Esh : shs pre bs = mkShape 1 n 1) (Hn : (0 < n)%nat).
Hypothesis Hlay : (n = 1%nat /\ k_layers st = la) \/ ((2 <= n)%nat /\ root_logits st = Ok rl /\ removelast (k_layers st) = la).
Variables (D : nat -> domain) (W : nat) (ev : option row) (e : row) (h : nat -> R -> R) (I : leaf -> nat -> nat -> nat -> R).
Hypothesis (hpos : forall v a, 0 <= h v a) (HI : leaf_int D h I m) (HW : columns_in m W) (Hfin : possible m s e).
Hypothesis Hev : ev = Some e \/ (ev = None /\ forall v, vars m v -> e v = None).
Lemma from_channel q vs : (q < n)%nat -> missing e (query (scope_of m)) vs ->
  expects D (stack_sample_from false W st la ev (mkCtx [q] [true] 0) e) (tests h vs)
    (sems pre bs (base_h m (k_fact st) e I) 0%nat q 0%nat / sems pre bs (base m s (k_fact st) e) 0%nat q 0%nat).
Proof.
  intros Hq Mi. destruct Hdraw as [Hs Hp].
  pose proof (from_ok leaves m s depth reps d (k_fact st) (lo_built _ _ _ _ HL) (lo_in _ _ _ _ HL) Hlf (leaves_built _ _ _ _ HL) (lo_aligned _ _ _ _ HL)
    (lo_shape _ _ _ _ HL) (lo_one _ _ _ _ HL) HR Hs Hp Ef D W ev e h I hpos HI HW Hfin Hev st pre la (mkCtx [q] [true] 0) vs El eq_refl Hroute Ea) as F.
  rewrite Esh in F. cbn [features] in F.
  assert (E : ratio 1 (sems pre bs (base_h m (k_fact st) e I)) (sems pre bs (base m s (k_fact st) e)) (mkCtx [q] [true] 0) =
    sems pre bs (base_h m (k_fact st) e I) 0%nat q 0%nat / sems pre bs (base m s (k_fact st) e) 0%nat q 0%nat).
  { unfold ratio, Wt. cbn [bprod c_ci c_rep nth]. now rewrite !Rmult_1_l. }
  rewrite <- E. apply F; [|exact Mi]. split; [reflexivity|]. split; [reflexivity|]. split; [cbn; lia|]. cbn [features channels c_ci]. intros f Hf.
  replace f with 0%nat by lia. exact Hq.
Qed.
Lemma stack_draw vs : missing e (query (scope_of m)) vs ->
  expects D (stack_sample false W n st ev e) (tests h vs)
    (bsum n (fun q => softmax n rl q * (sems pre bs (base_h m (k_fact st) e I) 0%nat q 0%nat / sems pre bs (base m s (k_fact st) e) 0%nat q 0%nat))).
Proof.
  intros Mi. unfold stack_sample. destruct Hlay as [[N Elay]|(N & Er & Elay)].
  - destruct (Nat.ltb_spec 1 n); [lia|]. rewrite Elay, N. cbn [bsum]. rewrite softmax_one, Rplus_0_l, Rmult_1_l.
    exact (from_channel 0 vs Hn Mi).
  - destruct (Nat.ltb_spec 1 n); [|lia]. rewrite Er, Elay. cbn [of_result pbind].
    eapply (expects_bind D _ _ _ (fun q => sems pre bs (base_h m (k_fact st) e I) 0%nat q 0%nat / sems pre bs (base m s (k_fact st) e) 0%nat q 0%nat)).
    + exact (pick_prior D n rl _ Hn).
    + intros q Hq. apply from_channel; [|exact Mi]. unfold sample_logits in Hq. destruct (Rlt_dec _ _); [|inversion Hq].
      inversion Hq as [|? ? ? i b Hi Hw Ho|]; subst. inversion Ho; subst. exact Hi.
Qed.
End Draw.

(** the value of the mixture on leaf expectations is its value on the completed row *)
Lemma base_h_point (dom : nat -> list R) leaves m s reps fm e y vs : leaves_ok leaves m s reps -> leafy reps leaves ->
  (forall v, NoDup (dom v)) -> missing e (query (scope_of m)) vs -> completes dom vs e y ->
  forall f c r, (c < channels (out_shape m))%nat -> (r < reps)%nat ->
  base_h m fm e (fun l f c r => lsumR (map (fun a => pr (l_lp l f c r a) * point y (colv l f) a) (dom (colv l f)))) f c r = base m s fm y f c r.
Proof.
  intros HL Hlf ND Mi Hy f c r Hc Hr. pose proof (leaves_built _ _ _ _ HL) as Bm.
  assert (ES : repetitions s = reps) by (apply (leafy_reps leaves m s reps); try exact Bm; try apply HL; exact Hlf).
  unfold base_h, base, group_prob. apply bprod_ext. intros i Hi.
  destruct (fc_mat fm r i f); [|reflexivity]. unfold leaf_prob. rewrite ES, bidx_reps by exact Hr.
  change (pr (loglik m y i c r)) with (prob m y i c r). apply (point_leaf dom m e y vs Bm (lo_aligned _ _ _ _ HL) ND Mi Hy).
  apply (in_shape_pos m s _ _ _ (built_wf m Bm) (lo_shape _ _ _ _ HL)).
  destruct (ll_shape_spec m s (built_wf m Bm) (lo_shape _ _ _ _ HL)) as (E1 & E2 & E3).
  split; [rewrite E1, (lo_one _ _ _ _ HL); exact Hi|]. split; [now rewrite E2|now rewrite ES].
Qed.

(** layers look at no other entries than those of the input's shape *)
Lemma sem_local o s so P Q : fits o s so -> (forall f c r, in_shape s f c r -> P f c r = Q f c r) ->
  forall f c r, in_shape (semsh o s) f c r -> sem o s P f c r = sem o s Q f c r.
Proof.
  intros (HC & HR & Hf) H f c r (If & Ic & Ir).
  destruct o as [outer k n|co nr lg|co nr lg|co nr lg|sc co nr lg|]; cbn [semsh sem features channels repetitions] in *.
  - destruct Hf as (-> & Hk & (w & Hw & EW) & _). assert (Dw : (features s / 2 = w)%nat) by (rewrite EW; apply Nat.div_mul; lia).
    assert (IN : forall i a, (i < 2)%nat -> (a < channels s)%nat -> (f < w)%nat -> (r < repetitions s)%nat -> in_shape s (in_feature k w 2 f i) a r).
    { intros i a A B E1 E2. split; [|split; assumption]. rewrite EW. now apply in_feature_lt. }
    destruct outer; cbn [features channels repetitions] in *; rewrite Dw in *.
    + rewrite (H _ (c / channels s)%nat), (H _ (c mod channels s)%nat); [reflexivity| |]; apply IN; try lia;
        [apply Nat.mod_upper_bound; lia|apply Nat.div_lt_upper_bound; lia].
    + rewrite !H; [reflexivity| |]; apply IN; lia.
  - subst nr. apply bsum_ext. intros i Hi. f_equal. apply H. repeat split; assumption.
  - destruct Hf as [<- ->]. apply bsum_ext. intros i Hi. f_equal. apply H. repeat split; assumption.
  - destruct Hf as (<- & (w & Hw & EW)). rewrite EW, Nat.div_mul in If by lia.
    apply bsum_ext. intros i Hi. rewrite !H; [reflexivity| |]; (split; [lia|split; assumption]).
  - destruct Hf as (<- & (w & Hw & EW)). rewrite EW, Nat.div_mul in If by lia.
    apply bsum_ext. intros i Hi. apply bsum_ext. intros j Hj. rewrite !H; [reflexivity| |]; (split; [lia|split; assumption]).
  - apply bprod_ext. intros g Hg. apply H. repeat split; assumption.
Qed.
Lemma sems_local ops ds s de P Q : goods ops ds s de -> (forall f c r, in_shape s f c r -> P f c r = Q f c r) ->
  forall f c r, in_shape (shs ops s) f c r -> sems ops s P f c r = sems ops s Q f c r.
Proof.
  intros G. revert P Q. induction G as [ds s|o rest ds s ds' de Ed Ag Hf Hm Ag' G IH]; intros P Q H f c r IN; cbn [sems shs] in *; [now apply H|].
  apply IH; [|exact IN]. exact (sem_local o s ds' P Q Hf H).
Qed.

Lemma sems_one ops : forall ds s, routes ops ds s -> forall P1, (forall f c r, in_shape s f c r -> P1 f c r = 1) ->
  forall f c r, in_shape (shs ops s) f c r -> sems ops s P1 f c r = 1.
Proof.
  induction ops as [|o ops IH]; intros ds s HR P1 H f c r IN; cbn [sems shs] in *; [now apply H|].
  inversion HR as [|o' rest' ds_ s_ ds' Ed Ag Hf Hm H1 HF Hor HR']; subst. eapply IH; [exact HR'| |exact IN].
  exact (sem_one o s ds' P1 Hf Hm H).
Qed.
Lemma missing_all e q : NoDup q -> (forall v, In v q -> e v = None) -> missing e q q.
Proof. intros ND H. split; [exact ND|]. intros v. split; [intros Hv; auto|intros [Hv _]; exact Hv]. Qed.
Lemma possible_missing leaves m s reps e : leaves_ok leaves m s reps -> (forall v, vars m v -> e v = None) -> possible m s e.
Proof.
  intros HL He f c r IN N. pose proof (leaves_built _ _ _ _ HL) as Bm. pose proof (built_wf m Bm) as Wf.
  pose proof (in_shape_pos m s _ _ _ Wf (lo_shape _ _ _ _ HL) IN) as HP.
  assert (E : prob m e f c r = 1).
  { apply prob_all_nan; auto; [apply HL|]. intros v Hv. apply He. unfold vars. apply (wf_union m (wf_wf1 m Wf)). exists f. split; [apply HP|exact Hv]. }
  unfold prob in E. rewrite N in E. cbn in E. lra.
Qed.
Lemma leaf_expects_ok D leaves m s reps e h I : leaves_ok leaves m s reps -> (forall v a, 0 <= h v a) -> leaf_int D h I m ->
  leaf_expects D h m s e (fun i c r => pev (sc_h e I) m i c r).
Proof.
  intros HL hpos HI i c r IN. pose proof (leaves_built _ _ _ _ HL) as Bm. pose proof (built_wf m Bm) as Wf.
  exists (filter (fun v => isnone (e v)) (nth i (fts m) [])).
  assert (Mi : missing e (nthq m i) (filter (fun v => isnone (e v)) (nthq m i))).
  { split; [|intros v; rewrite filter_In; destruct (e v); cbn; intuition congruence]. apply NoDup_filter, ssorted_NoDup, (wf_sorted _ (wf_wf1 _ Wf)).
    destruct (ll_shape_spec m s Wf (lo_shape _ _ _ _ HL)) as (E1 & _). rewrite <- E1. apply IN. }
  split; [exact Mi|]. apply (mix_sums D e h I hpos m i c r _ Wf (lo_aligned _ _ _ _ HL) HI); [|exact Mi].
  exact (in_shape_pos m s _ _ _ Wf (lo_shape _ _ _ _ HL) IN).
Qed.

Section DrawNone.
Variables (leaves : list module) (m : module) (s : shape) (depth reps n : nat) (d : draw) (st : stack) (pre : list op) (la : list layer) (rl : nat -> R).
Notation bs := (base_shape m depth reps).
Hypothesis (HL : leaves_ok leaves m s reps) (Hlf : leafy reps leaves) (HR : (0 < reps)%nat) (Hdraw : draw_ok (length (query (scope_of m))) depth d).
Hypothesis (El : k_leaf st = m)
  (Ef : mk_factorize (length (query (scope_of m))) (length (query (scope_of m))) (channels (out_shape m)) depth reps (d_sizes d) (d_perms d) = Ok (k_fact st)).
Hypothesis (Hroute : routes pre bs bs) (Ea : assemble bs pre = Ok la) (Esh : shs pre bs = mkShape 1 n 1) (Hn : (0 < n)%nat).
Hypothesis Hlay : (n = 1%nat /\ k_layers st = la) \/ ((2 <= n)%nat /\ root_logits st = Ok rl /\ removelast (k_layers st) = la).
Variables (D : nat -> domain) (W : nat) (e : row) (h : nat -> R -> R) (I : leaf -> nat -> nat -> nat -> R).
Hypothesis (hpos : forall v a, 0 <= h v a) (HI : leaf_int D h I m) (HW : columns_in m W) (Hfin : possible m s e).
Notation Pn := (fun f c r => base_h m (k_fact st) e I f c r / base m s (k_fact st) e f c r).
Lemma none_channel q vs : (q < n)%nat -> missing e (query (scope_of m)) vs ->
  expects D (stack_sample_from false W st la None (mkCtx [q] [true] 0) e) (tests h vs) (sems pre bs Pn 0%nat q 0%nat).
Proof.
  intros Hq Mi. destruct Hdraw as [Hs Hp].
  pose proof (from_none leaves m s depth reps d (k_fact st) (lo_built _ _ _ _ HL) (lo_in _ _ _ _ HL) Hlf (leaves_built _ _ _ _ HL)
    (lo_shape _ _ _ _ HL) (lo_one _ _ _ _ HL) HR Hs Hp Ef D W e h I hpos HI HW Hfin st pre la (mkCtx [q] [true] 0) vs El eq_refl Hroute Ea) as F.
  rewrite Esh in F. cbn [features] in F.
  assert (E : ratio 1 (sems pre bs Pn) (sems pre bs (fun _ _ _ => 1)) (mkCtx [q] [true] 0) = sems pre bs Pn 0%nat q 0%nat).
  { unfold ratio, Wt. cbn [bprod c_ci c_rep nth]. rewrite !Rmult_1_l. rewrite (sems_one pre _ _ Hroute (fun _ _ _ => 1)); [unfold Rdiv; rewrite Rinv_1; ring|reflexivity|].
    rewrite Esh. repeat split; cbn; lia. }
  rewrite <- E. apply F; [|exact Mi]. split; [reflexivity|]. split; [reflexivity|]. split; [cbn; lia|]. cbn [features channels c_ci]. intros f Hf.
  replace f with 0%nat by lia. exact Hq.
Qed.
Lemma stack_draw_none vs : missing e (query (scope_of m)) vs ->
  expects D (stack_sample false W n st None e) (tests h vs) (bsum n (fun q => softmax n rl q * sems pre bs Pn 0%nat q 0%nat)).
Proof.
  intros Mi. unfold stack_sample. destruct Hlay as [[N Elay]|(N & Er & Elay)].
  - destruct (Nat.ltb_spec 1 n); [lia|]. rewrite Elay, N. cbn [bsum]. rewrite softmax_one, Rplus_0_l, Rmult_1_l.
    exact (none_channel 0 vs Hn Mi).
  - destruct (Nat.ltb_spec 1 n); [|lia]. rewrite Er, Elay. cbn [of_result pbind].
    eapply (expects_bind D _ _ _ (fun q => sems pre bs Pn 0%nat q 0%nat)).
    + exact (pick_prior D n rl _ Hn).
    + intros q Hq. apply none_channel; [|exact Mi]. unfold sample_logits in Hq. destruct (Rlt_dec _ _); [|inversion Hq].
      inversion Hq as [|? ? ? i b Hi Hw Ho|]; subst. inversion Ho; subst. exact Hi.
Qed.
End DrawNone.
Lemma nthq_single m : wf m -> aligned m -> (forall ch, ~ node_of (MProduct ch) m) -> forall f c r, pos m f c r -> exists v, nthq m f = [v].
Proof.
  intros W A NP f c r P. revert NP. revert f c r P.
  apply (pos_induction (fun m f c r => (forall ch, ~ node_of (MProduct ch) m) -> exists v, nthq m f = [v])); auto.
  - intros l f c r Hok Hf Hc Hr _. eexists. now apply nthq_leaf.
  - intros ch co rr lg f c r W0 A0 HP IH NP. pose proof W0 as W1. cbn in W1. destruct W1 as [W1 _]. pose proof (wf_cpos ch (wf_wf1 ch W1)) as PC.
    destruct (IH 0%nat PC) as [_ H]. apply H. intros x Hx. apply (NP x). now constructor.
  - intros sc pre ch post g c r _ _ HP W0 A0 _ EN IH NP. rewrite EN. apply IH. intros x Hx. apply (NP x). eapply node_cat; [|exact Hx]. apply in_elt.
  - intros sc pre ch post f k r _ _ HP W0 A0 _ EN IH NP. rewrite EN. apply IH. intros x Hx. apply (NP x). eapply node_cat; [|exact Hx]. apply in_elt.
  - intros ch c r W0 A0 HP IH NP. exfalso. apply (NP ch). constructor.
Qed.
Lemma leafy_no_product leaves m reps : leafy reps leaves -> leaf_input leaves = Ok m -> forall ch, ~ node_of (MProduct ch) m.
Proof.
  intros Hl Hin ch H.
  assert (LF : forall l, ~ node_of (MProduct ch) (MLeaf l)) by (intros l X; inversion X).
  destruct leaves as [|m0 [|m1 rest]]; [discriminate| |]; inversion Hl as [|? ? (l & -> & El) Hrest]; subst.
  - injection Hin as <-. exact (LF l H).
  - cbn [leaf_input] in Hin. unfold mk_cat in Hin. destruct (forallb _ _); [|discriminate].
    destruct (all_pairwise_disjoint _) as [b|]; [|discriminate]. cbn [bind] in Hin. destruct b; [|discriminate].
    destruct (join_all _) as [sc|] eqn:Ej; [|discriminate]. cbn [bind] in Hin. injection Hin as <-.
    inversion H as [| | |? x ? ? ? Hx Hn]; subst. unfold leafy in Hl. rewrite Forall_forall in Hl. destruct (Hl x Hx) as (l' & -> & _). exact (LF l' Hn).
Qed.
(** finite domains: the leaves' values are those of the drawn cells alone *)
Lemma base_only (dom : nat -> list R) leaves m s reps fm e y vs : leaves_ok leaves m s reps -> leafy reps leaves -> possible m s e ->
  (forall v, NoDup (dom v)) -> missing e (query (scope_of m)) vs -> completes dom vs e y ->
  forall f c r, (c < channels (out_shape m))%nat -> (r < reps)%nat ->
  base_h m fm e (fun l f c r => lsumR (map (fun a => pr (l_lp l f c r a) * point y (colv l f) a) (dom (colv l f)))) f c r / base m s fm e f c r = base m s fm (only vs y) f c r.
Proof.
  intros HL Hlf Hfin ND Mi Hy f c r Hc Hr. rewrite (base_h_point dom leaves m s reps fm e y vs HL Hlf ND Mi Hy f c r Hc Hr).
  pose proof (leaves_built _ _ _ _ HL) as Bm. pose proof (built_wf m Bm) as Wf. pose proof (wf_wf1 m Wf) as W1.
  assert (ES : repetitions s = reps) by (apply (leafy_reps leaves m s reps); try exact Bm; try apply HL; exact Hlf).
  destruct (ll_shape_spec m s Wf (lo_shape _ _ _ _ HL)) as (E1 & E2 & E3).
  unfold base, group_prob. set (nf := length (query (scope_of m))).
  assert (X : forall i, (i < nf)%nat -> leaf_prob m s e i c r <> 0 /\ leaf_prob m s y i c r / leaf_prob m s e i c r = leaf_prob m s (only vs y) i c r).
  { intros i Hi. unfold leaf_prob. rewrite ES, bidx_reps by exact Hr. change (pr (loglik m ?x i c r)) with (prob m x i c r).
    assert (IN : in_shape s i c r) by (split; [rewrite E1, (lo_one _ _ _ _ HL); exact Hi|split; [now rewrite E2|now rewrite ES]]).
    pose proof (in_shape_pos m s _ _ _ Wf (lo_shape _ _ _ _ HL) IN) as HP.
    assert (NZ : prob m e i c r <> 0).
    { unfold prob. pose proof (Hfin i c r IN) as F. destruct (loglik m e i c r); [contradiction|]. cbn [pr]. apply Rgt_not_eq, exp_pos. }
    split; [exact NZ|]. destruct Hy as [Y1 Y2]. destruct Mi as [_ Mi].
    (* the feature has one variable *)
    assert (ONE : exists v, nthq m i = [v]).
    { apply (nthq_single m Wf (lo_aligned _ _ _ _ HL) (leafy_no_product leaves m reps Hlf (lo_in _ _ _ _ HL)) i c r HP). }
    destruct ONE as (v & Ev). assert (Qv : In v (query (scope_of m))).
    { apply (wf_union m W1). exists i. split; [apply HP|]. rewrite Ev. now left. }
    assert (LOC : forall x x', x v = x' v -> prob m x i c r = prob m x' i c r).
    { intros x x' Hx. apply prob_local; auto; [apply HL|]. intros u Hu. rewrite Ev in Hu. destruct Hu as [<-|[]]. exact Hx. }
    destruct (in_dec Nat.eq_dec v vs) as [Iv|Nv].
    - rewrite (LOC (only vs y) y) by (unfold only; destruct (in_dec _ _ _); [reflexivity|contradiction]).
      assert (EN : prob m e i c r = 1).
      { apply prob_all_nan; auto; [apply HL|]. intros u Hu. rewrite Ev in Hu. destruct Hu as [<-|[]]. now apply Mi. }
      rewrite EN. unfold Rdiv. rewrite Rinv_1. ring.
    - rewrite (LOC y e) by now apply Y2. rewrite (prob_all_nan m Wf (lo_aligned _ _ _ _ HL) i c r HP (only vs y)); [field; exact NZ|].
      intros u Hu. rewrite Ev in Hu. destruct Hu as [<-|[]]. unfold only. now destruct (in_dec _ _ _). }
  rewrite <- bprod_div.
  - apply bprod_ext. intros i Hi. destruct (fc_mat fm r i f); [apply X, Hi|unfold Rdiv; rewrite Rinv_1; ring].
  - intros i Hi. destruct (fc_mat fm r i f); [apply X, Hi|lra].
Qed.

Section Rat.
Variables (leaves : list module) (c : rat_cfg) (p : rat_par) (d : draw) (k : split_kind) (m : module) (s : shape) (st : stack).
Hypothesis (HL : leaves_ok leaves m s (ra_reps c)) (Hlf : leafy (ra_reps c) leaves) (Hmode : rat_mode c = Ok (k, 2%nat)) (Hk : k <> ByIndex) (HR : (1 <= ra_reps c)%nat).
Hypothesis (HF : rat_fine c m) (H3 : rat_no3 c m) (Est : mk_rat leaves c p d = Ok st) (H1 : ra_root c = 1%nat \/ ra_reps c = 1%nat).
Hypothesis Hdraw : draw_ok (length (query (scope_of m))) (ra_depth c) d.
Notation bs := (base_shape m (ra_depth c) (ra_reps c)).
Notation C0 := (channels (out_shape m)).
Notation rl := (fun j => rp_root p 0%nat j 0%nat 0%nat).
Lemma bs_eq : bs = rat_sh c C0 0.
Proof. unfold base_shape, rat_sh, rat_ch. now rewrite Nat.sub_0_r. Qed.
Lemma levels_plain : no_mix (flat_map (rat_level c p k 2) (seq 0 (ra_depth c))).
Proof. intros co nr lg H. apply in_flat_map in H. destruct H as (i & _ & [H|[H|[]]]); discriminate. Qed.
Lemma rat_good : exists de, goods (rat_pre c p k) bs bs de.
Proof.
  destruct (rat_all_good leaves c p k m s HL Hk HR HF H3) as (ops & Eo & G & _). rewrite <- bs_eq in G.
  unfold rat_ops in Eo. destruct (Nat.eqb_spec (ra_depth c) 0); [discriminate|]. injection Eo as <-.
  change (?a ++ ?b :: ?r) with (a ++ [b] ++ r) in G. rewrite app_assoc in G. destruct (goods_app_inv _ _ _ _ _ G) as (dm & G1 & _). exists dm. exact G1.
Qed.
Lemma rat_setup : exists la, k_leaf st = m /\
  mk_factorize (length (query (scope_of m))) (length (query (scope_of m))) C0 (ra_depth c) (ra_reps c) (d_sizes d) (d_perms d) = Ok (k_fact st) /\
  routes (rat_pre c p k) bs bs /\ assemble bs (rat_pre c p k) = Ok la /\ shs (rat_pre c p k) bs = mkShape 1 (ra_root c) 1 /\
  ((ra_root c = 1%nat /\ k_layers st = la) \/ ((2 <= ra_root c)%nat /\ root_logits st = Ok rl /\ removelast (k_layers st) = la)).
Proof.
  destruct (rat_pre_ok leaves c p k m s HL Hk HR HF H3) as [Esh _]. rewrite <- bs_eq in Esh.
  destruct (rat_good) as (dm & G1). destruct (goods_run _ _ _ _ G1) as (la & Ea & _). exists la.
  destruct (rat_built leaves c p d k m s HL Hmode Hk HR HF H3) as (st' & E & El & Ef & ops & Eo & Eas). rewrite Est in E. injection E as <-.
  split; [exact El|]. split; [exact Ef|]. split; [|split; [exact Ea|split; [exact Esh|]]].
  - unfold rat_pre in G1 |- *. apply (routes_mix _ _ _ _ _ _ G1 levels_plain); [cbn; apply pow_pos|].
    destruct HF as (F1 & F2 & F3 & F4 & F5).
    destruct (levels_good c p k C0 Hk (C0_pos leaves c m s HL) F1 F2 HR (ra_depth c) (le_n _) (no3_accepts c m HR H3)) as [_ E].
    rewrite bs_eq, E. cbn [rat_sh channels repetitions]. rewrite (rat_ch_depth c C0 (C0_pos leaves c m s HL) F1 F2 HR F4). exact H1.
  - destruct (Nat.lt_ge_cases 1 (ra_root c)) as [L|L].
    + right. split; [exact L|]. destruct (rat_parts leaves c p d k m s st HL Hmode Hk HR HF H3 Est L) as (_ & _ & de & G & Ea2). rewrite <- bs_eq in G, Ea2.
      split; [exact (post_root st bs (rat_pre c p k) (rp_root p) de G Ea2)|].
      destruct (post_layers st bs (rat_pre c p k) (rp_root p) de G Ea2) as (la' & l & E1 & _ & E3). rewrite Ea in E3. injection E3 as <-.
      rewrite E1. apply removelast_snoc.
    + left. assert (R1 : ra_root c = 1%nat) by (destruct HF; lia). split; [exact R1|].
      unfold rat_ops in Eo. destruct (Nat.eqb_spec (ra_depth c) 0); [discriminate|]. injection Eo as <-. rewrite <- bs_eq in Eas.
      destruct (Nat.ltb_spec 1 (ra_root c)); [lia|]. fold (rat_pre c p k) in Eas. rewrite Ea in Eas. now injection Eas.
Qed.

Notation cls x q := (rat_class c p k m s (fc_mat (k_fact st)) x q).
Notation dens x := (rat_density c p k m s (fc_mat (k_fact st)) x).
Lemma rat_dens x : dens x = bsum (ra_root c) (fun q => rat_prior c p q * cls x q).
Proof. reflexivity. Qed.
Lemma rat_pre_sem P q : (q < ra_root c)%nat -> sems (rat_pre c p k) bs P 0%nat q 0%nat =
  bsum (ra_reps c) (fun r => softmax (ra_reps c) (rp_mix p 0%nat q) r *
      region (ra_depth c) (ra_outer c) k (rat_channels (ra_depth c) C0 (ra_root c) (ra_region c)) (rp_sum p) P (ra_depth c) 0 q r).
Proof. intros Hq. rewrite bs_eq. now apply (rat_pre_ok leaves c p k m s HL Hk HR HF H3). Qed.
Lemma rat_law D W ev e h I vs : (forall v a, 0 <= h v a) -> leaf_int D h I m -> columns_in m W -> possible m s e ->
  ev = Some e \/ (ev = None /\ forall v, vars m v -> e v = None) -> missing e (query (scope_of m)) vs ->
  expects D (stack_sample false W (ra_root c) st ev e) (tests h vs)
    (bsum (ra_root c) (fun q => rat_prior c p q * (rat_class_of c p k m (fc_mat (k_fact st)) (fun i c r => pev (sc_h e I) m i c r) q / cls e q))).
Proof.
  intros hpos HI HW Hfin Hev Mi. destruct rat_setup as (la & El & Ef & Hroute & Ea & Esh & Hlay).
  pose proof (stack_draw leaves m s (ra_depth c) (ra_reps c) (ra_root c) d st (rat_pre c p k) la rl HL Hlf HR Hdraw El Ef Hroute Ea Esh ltac:(destruct HF; lia) Hlay
    D W ev e h I hpos HI HW Hfin Hev vs Mi) as S.
  erewrite bsum_ext; [exact S|]. intros q Hq. cbn beta. rewrite !rat_pre_sem by exact Hq. reflexivity.
Qed.
Lemma rat_class_fin (dom : nat -> list R) e y vs q : (forall v, NoDup (dom v)) -> missing e (query (scope_of m)) vs -> completes dom vs e y -> (q < ra_root c)%nat ->
  rat_class_of c p k m (fc_mat (k_fact st)) (fun i c r => pev (sc_h e (fun l f c r => lsumR (map (fun a => pr (l_lp l f c r a) * point y (colv l f) a) (dom (colv l f))))) m i c r) q = cls y q.
Proof.
  intros ND Mi Hy Hq. destruct rat_setup as (la & El & Ef & _ & _ & Esh & _).
  unfold rat_class_of, rat_class. rewrite <- !rat_pre_sem by exact Hq. destruct rat_good as (de & G).
  apply (sems_local _ _ _ _ _ _ G); [|rewrite Esh; repeat split; cbn; lia].
  intros f ch r (If & Ic & Ir). cbn [base_shape features channels repetitions] in If, Ic, Ir.
  exact (base_h_point dom leaves m s (ra_reps c) (k_fact st) e y vs HL Hlf ND Mi Hy f ch r Ic Ir).
Qed.
Lemma rat_law_fin (dom : nat -> list R) W ev e y vs : (forall v, NoDup (dom v)) -> columns_in m W -> possible m s e ->
  ev = Some e \/ (ev = None /\ forall v, vars m v -> e v = None) -> missing e (query (scope_of m)) vs -> completes dom vs e y ->
  expects (fun v => DFin (dom v)) (stack_sample false W (ra_root c) st ev e) (tests (point y) vs)
    (bsum (ra_root c) (fun q => rat_prior c p q * (cls y q / cls e q))).
Proof.
  intros ND HW Hfin Hev Mi Hy.
  pose proof (rat_law _ W ev e (point y) _ vs (point_nonneg y) (leaf_int_fin dom (point y) m) HW Hfin Hev Mi) as S.
  erewrite bsum_ext; [exact S|]. intros q Hq. cbn beta. now rewrite (rat_class_fin dom e y vs q ND Mi Hy Hq).
Qed.
Lemma rat_class_one e q : (forall v, vars m v -> e v = None) -> (q < ra_root c)%nat -> cls e q = 1.
Proof.
  intros He Hq. destruct rat_setup as (la & El & Ef & Hroute & _ & Esh & _). destruct Hdraw as [Hs Hp].
  unfold rat_class. rewrite <- rat_pre_sem by exact Hq. apply (sems_one _ _ _ Hroute); [|rewrite Esh; repeat split; cbn; lia].
  intros f ch r IN.
  eapply (base_one leaves m s (ra_depth c) (ra_reps c)); eauto; try apply HL. exact (leaves_built _ _ _ _ HL).
Qed.
Lemma rat_law_none (dom : nat -> list R) W e y vs : (forall v, NoDup (dom v)) -> columns_in m W -> possible m s e ->
  missing e (query (scope_of m)) vs -> completes dom vs e y ->
  expects (fun v => DFin (dom v)) (stack_sample false W (ra_root c) st None e) (tests (point y) vs) (dens (only vs y)).
Proof.
  intros ND HW Hfin Mi Hy. destruct rat_setup as (la & El & Ef & Hroute & Ea & Esh & Hlay).
  pose proof (stack_draw_none leaves m s (ra_depth c) (ra_reps c) (ra_root c) d st (rat_pre c p k) la rl HL Hlf HR Hdraw El Ef Hroute Ea Esh ltac:(destruct HF; lia) Hlay
    (fun v => DFin (dom v)) W e (point y) _ (point_nonneg y) (leaf_int_fin dom (point y) m) HW Hfin vs Mi) as S.
  rewrite rat_dens. erewrite bsum_ext; [exact S|]. intros q Hq. cbn beta. unfold rat_prior. f_equal. unfold rat_class. rewrite <- rat_pre_sem by exact Hq.
  destruct rat_good as (de & G). symmetry. apply (sems_local _ _ _ _ _ _ G); [|rewrite Esh; repeat split; cbn; lia].
  intros f ch r (If & Ic & Ir). cbn [base_shape features channels repetitions] in If, Ic, Ir.
  exact (base_only dom leaves m s (ra_reps c) (k_fact st) e y vs HL Hlf Hfin ND Mi Hy f ch r Ic Ir).
Qed.
End Rat.

Section Ein.
Variables (leaves : list module) (c : ein_cfg) (p : ein_par) (d : draw) (m : module) (s : shape) (st : stack).
Hypothesis (HL : leaves_ok leaves m s (ei_reps c)) (Hlf : leafy (ei_reps c) leaves) (Est : mk_einet leaves c p d = Ok st).
Hypothesis (H1 : ei_classes c = 1%nat \/ ei_reps c = 1%nat).
Notation fd := (ein_fdepth c (length (query (scope_of m)))).
Hypothesis Hdraw : draw_ok (length (query (scope_of m))) fd d.
Notation bs := (base_shape m fd (ei_reps c)).
Notation C0 := (channels (out_shape m)).
Notation rl := (fun j => ep_root p 0%nat j 0%nat 0%nat).
Let HF : ein_fine c m := ein_ok_fine leaves c p d m s HL st Est.
Let F1 : (0 < ei_classes c)%nat := proj1 HF.
Let HR : (0 < ei_reps c)%nat := proj1 (proj2 (proj2 (proj2 HF))).
Lemma ein_good : exists de, goods (ein_pre c p m) bs bs de.
Proof.
  destruct (ein_pre_does leaves c p d m s st HL Est) as (G & _ & _). destruct (G bs) as (de & Gd & _); [split; reflexivity|]. exists de. exact Gd.
Qed.
Definition ein_plain : list op := ein_body c p ++
  (if (negb (ei_topdown c) && Nat.ltb 1 (ein_width c (length (query (scope_of m)))))%bool then [OAll] else [])
  ++ (if negb (Nat.eqb (ein_out c) (ei_classes c)) then [OSum (ei_classes c) (ei_reps c) (ep_class p)] else []).
Lemma ein_plain_ok : no_mix ein_plain.
Proof.
  assert (L : forall i co, ein_layer c p i co <> OMix (ei_classes c) (ei_reps c) (ep_mix p) /\ forall co' nr lg, ein_layer c p i co <> OMix co' nr lg).
  { intros i co. unfold ein_layer. destruct (ei_type c); split; intros; discriminate. }
  intros co nr lg H. unfold ein_plain in H. apply in_app_or in H. destruct H as [H|H].
  - unfold ein_body, ein_topdown_ops, ein_bottomup_ops in H. destruct (ei_topdown c); (destruct (Nat.eqb (ei_depth c) 0);
    [destruct H as [H|[]]; discriminate|apply in_map_iff in H; destruct H as (i & E & _); exact (proj2 (L _ _) _ _ _ E)]).
  - apply in_app_or in H. destruct H as [H|H]; [destruct (_ && _)%bool|destruct (negb _)]; destruct H as [H|[]] || destruct H; discriminate.
Qed.
Lemma ein_split : ein_pre c p m = ein_plain ++ (if Nat.ltb 1 (ei_reps c) then [OMix (ei_classes c) (ei_reps c) (ep_mix p)] else []).
Proof. unfold ein_pre, ein_plain. now rewrite <- !app_assoc. Qed.
Lemma ein_setup : exists la, k_leaf st = m /\
  mk_factorize (length (query (scope_of m))) (length (query (scope_of m))) C0 fd (ei_reps c) (d_sizes d) (d_perms d) = Ok (k_fact st) /\
  routes (ein_pre c p m) bs bs /\ assemble bs (ein_pre c p m) = Ok la /\ shs (ein_pre c p m) bs = mkShape 1 (ei_classes c) 1 /\
  ((ei_classes c = 1%nat /\ k_layers st = la) \/ ((2 <= ei_classes c)%nat /\ root_logits st = Ok rl /\ removelast (k_layers st) = la)).
Proof.
  destruct (ein_pre_does leaves c p d m s st HL Est) as (_ & Esh & _). change (ein_base c C0 (length (query (scope_of m)))) with bs in Esh.
  destruct ein_good as (dm & G1). destruct (goods_run _ _ _ _ G1) as (la & Ea & _). exists la.
  destruct (ein_built leaves c p d m s HL HF) as (st' & de & E & El & Ef & G & Eas). rewrite Est in E. injection E as <-.
  split; [exact El|]. split; [exact Ef|]. split; [|split; [exact Ea|split; [exact Esh|]]].
  - rewrite ein_split in G1 |- *. destruct (Nat.ltb_spec 1 (ei_reps c)) as [L|L].
    + apply (routes_mix _ _ _ _ _ _ G1 ein_plain_ok); [cbn; apply pow_pos|]. left.
      destruct (goods_app_inv _ _ _ _ _ G1) as (dm' & _ & G2). inversion G2 as [|o' rest' ds_ s_ ds' de' Ed Ag Hf Hm Ag' G']; subst.
      destruct Hf as (_ & _ & _ & Hc). rewrite <- Hc. lia.
    + rewrite app_nil_r in *. exact (proj1 (routes_plain _ _ _ G1 ein_plain_ok (pow_pos _))).
  - destruct (Nat.lt_ge_cases 1 (ei_classes c)) as [L|L].
    + right. split; [exact L|]. destruct (ein_parts leaves c p d m s st HL Est L) as (_ & _ & _ & de' & G' & Ea2).
      change (ein_base c C0 (length (query (scope_of m)))) with bs in G', Ea2.
      split; [exact (post_root st bs (ein_pre c p m) (ep_root p) de' G' Ea2)|].
      destruct (post_layers st bs (ein_pre c p m) (ep_root p) de' G' Ea2) as (la' & l & E1 & _ & E3). rewrite Ea in E3. injection E3 as <-.
      rewrite E1. apply removelast_snoc.
    + left. assert (R1 : ei_classes c = 1%nat) by lia. split; [exact R1|].
      assert (EA : ein_all c p m = ein_pre c p m).
      { unfold ein_all, ein_pre, finalize. cbn [features channels]. destruct (Nat.ltb_spec 1 (ei_classes c)); [lia|]. now rewrite app_nil_r. }
      rewrite EA in Eas. change (ein_base c C0 (length (query (scope_of m)))) with bs in Eas. rewrite Ea in Eas. now injection Eas.
Qed.

Notation cls x q := (ein_class_density c p m s (fc_mat (k_fact st)) x q).
Notation dens x := (ein_density c p m s (fc_mat (k_fact st)) x).
Lemma ein_dens x : dens x = bsum (ei_classes c) (fun q => ein_prior c p q * cls x q).
Proof. reflexivity. Qed.
Lemma ein_pre_sem P q : (q < ei_classes c)%nat -> sems (ein_pre c p m) bs P 0%nat q 0%nat =
  bsum (ei_reps c) (fun r => softmax (ei_reps c) (ep_mix p 0%nat q) r * ein_class c p C0 (length (query (scope_of m))) P q r).
Proof. intros Hq. destruct (ein_pre_does leaves c p d m s st HL Est) as (_ & _ & E). apply (E P 0%nat q 0%nat). repeat split; cbn; lia. Qed.
Lemma ein_law D W ev e h I vs : (forall v a, 0 <= h v a) -> leaf_int D h I m -> columns_in m W -> possible m s e ->
  ev = Some e \/ (ev = None /\ forall v, vars m v -> e v = None) -> missing e (query (scope_of m)) vs ->
  expects D (stack_sample false W (ei_classes c) st ev e) (tests h vs)
    (bsum (ei_classes c) (fun q => ein_prior c p q * (ein_class_of c p m (fc_mat (k_fact st)) (fun i c r => pev (sc_h e I) m i c r) q / cls e q))).
Proof.
  intros hpos HI HW Hfin Hev Mi. destruct ein_setup as (la & El & Ef & Hroute & Ea & Esh & Hlay).
  pose proof (stack_draw leaves m s fd (ei_reps c) (ei_classes c) d st (ein_pre c p m) la rl HL Hlf HR Hdraw El Ef Hroute Ea Esh F1 Hlay
    D W ev e h I hpos HI HW Hfin Hev vs Mi) as S.
  erewrite bsum_ext; [exact S|]. intros q Hq. cbn beta. rewrite !ein_pre_sem by exact Hq. reflexivity.
Qed.
Lemma ein_class_fin (dom : nat -> list R) e y vs q : (forall v, NoDup (dom v)) -> missing e (query (scope_of m)) vs -> completes dom vs e y -> (q < ei_classes c)%nat ->
  ein_class_of c p m (fc_mat (k_fact st)) (fun i c r => pev (sc_h e (fun l f c r => lsumR (map (fun a => pr (l_lp l f c r a) * point y (colv l f) a) (dom (colv l f))))) m i c r) q = cls y q.
Proof.
  intros ND Mi Hy Hq. destruct ein_setup as (la & El & Ef & _ & _ & Esh & _).
  unfold ein_class_of, ein_class_density. rewrite <- !ein_pre_sem by exact Hq. destruct ein_good as (de & G).
  apply (sems_local _ _ _ _ _ _ G); [|rewrite Esh; repeat split; cbn; lia].
  intros f ch r (If & Ic & Ir). cbn [base_shape features channels repetitions] in If, Ic, Ir.
  exact (base_h_point dom leaves m s (ei_reps c) (k_fact st) e y vs HL Hlf ND Mi Hy f ch r Ic Ir).
Qed.
Lemma ein_law_fin (dom : nat -> list R) W ev e y vs : (forall v, NoDup (dom v)) -> columns_in m W -> possible m s e ->
  ev = Some e \/ (ev = None /\ forall v, vars m v -> e v = None) -> missing e (query (scope_of m)) vs -> completes dom vs e y ->
  expects (fun v => DFin (dom v)) (stack_sample false W (ei_classes c) st ev e) (tests (point y) vs)
    (bsum (ei_classes c) (fun q => ein_prior c p q * (cls y q / cls e q))).
Proof.
  intros ND HW Hfin Hev Mi Hy.
  pose proof (ein_law _ W ev e (point y) _ vs (point_nonneg y) (leaf_int_fin dom (point y) m) HW Hfin Hev Mi) as S.
  erewrite bsum_ext; [exact S|]. intros q Hq. cbn beta. now rewrite (ein_class_fin dom e y vs q ND Mi Hy Hq).
Qed.
Lemma ein_class_one e q : (forall v, vars m v -> e v = None) -> (q < ei_classes c)%nat -> cls e q = 1.
Proof.
  intros He Hq. destruct ein_setup as (la & El & Ef & Hroute & _ & Esh & _). destruct Hdraw as [Hs Hp].
  unfold ein_class_density. rewrite <- ein_pre_sem by exact Hq. apply (sems_one _ _ _ Hroute); [|rewrite Esh; repeat split; cbn; lia].
  intros f ch r IN.
  eapply (base_one leaves m s fd (ei_reps c)); eauto; try apply HL. exact (leaves_built _ _ _ _ HL).
Qed.
Lemma ein_law_none (dom : nat -> list R) W e y vs : (forall v, NoDup (dom v)) -> columns_in m W -> possible m s e ->
  missing e (query (scope_of m)) vs -> completes dom vs e y ->
  expects (fun v => DFin (dom v)) (stack_sample false W (ei_classes c) st None e) (tests (point y) vs) (dens (only vs y)).
Proof.
  intros ND HW Hfin Mi Hy. destruct ein_setup as (la & El & Ef & Hroute & Ea & Esh & Hlay).
  pose proof (stack_draw_none leaves m s fd (ei_reps c) (ei_classes c) d st (ein_pre c p m) la rl HL Hlf HR Hdraw El Ef Hroute Ea Esh F1 Hlay
    (fun v => DFin (dom v)) W e (point y) _ (point_nonneg y) (leaf_int_fin dom (point y) m) HW Hfin vs Mi) as S.
  rewrite ein_dens. erewrite bsum_ext; [exact S|]. intros q Hq. cbn beta. unfold ein_prior. f_equal. unfold ein_class_density. rewrite <- ein_pre_sem by exact Hq.
  destruct ein_good as (de & G). symmetry. apply (sems_local _ _ _ _ _ _ G); [|rewrite Esh; repeat split; cbn; lia].
  intros f ch r (If & Ic & Ir). cbn [base_shape features channels repetitions] in If, Ic, Ir.
  exact (base_only dom leaves m s (ei_reps c) (k_fact st) e y vs HL Hlf Hfin ND Mi Hy f ch r Ic Ir).
Qed.
End Ein.
