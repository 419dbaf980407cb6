(** The whole plan of a TensorizedQPC (proofs). *)
From Coq Require Import List Arith Bool Reals ZArith Lia Lra Sorted.
From Verif Require Import Base ScopeModel ScopeProofs RegionModel RegionSpec RegionProofs CircuitModel LayerModel PicModel PicSpec PicVisit PicMat PicShare TqModel TqSpec TqParam TqLevel TqVal TqStep TqBuild.
Import ListNotations.

Definition var (r : region) : nat := hd 0 (query (r_scope r)).
Lemma insert_In r l x : In x (insert_region r l) <-> x = r \/ In x l.
Proof.
  induction l as [|t l IH]; cbn [insert_region]; [cbn; intuition congruence|]. destruct (Nat.leb _ _); cbn [In]; [intuition congruence|]. rewrite IH. intuition congruence.
Qed.
Lemma sort_In l x : In x (sort_regions l) <-> In x l.
Proof. unfold sort_regions. induction l as [|t l IH]; cbn [fold_right]; [reflexivity|]. rewrite insert_In, IH. cbn [In]. intuition congruence. Qed.
Lemma insert_sorted r l : StronglySorted lt (map var l) -> ~ In (var r) (map var l) -> StronglySorted lt (map var (insert_region r l)).
Proof.
  induction l as [|t l IH]; intros HS N; cbn [insert_region map] in *; [repeat constructor|]. inversion HS as [|a b HS' F]; subst.
  change (hd 0 (query (r_scope r))) with (var r). change (hd 0 (query (r_scope t))) with (var t). assert (NE : var t <> var r) by (intros E; apply N; now left).
  destruct (Nat.leb_spec (var r) (var t)) as [H|H]; cbn [map].
  - constructor; [exact HS|]. constructor; [lia|]. rewrite Forall_forall in *. intros x Hx. specialize (F x Hx). lia.
  - constructor; [apply IH; [exact HS'|intros Hi; apply N; now right]|]. rewrite Forall_forall in *. intros x Hx. apply in_map_iff in Hx. destruct Hx as (d & <- & Hd). apply insert_In in Hd. destruct Hd as [->|Hd]; [lia|]. apply F. now apply in_map.
Qed.
Lemma sort_sorted l : NoDup (map var l) -> StronglySorted lt (map var (sort_regions l)).
Proof.
  induction l as [|t l IH]; intros ND; [constructor|]. change (sort_regions (t :: l)) with (insert_region t (sort_regions l)). inversion ND as [|a b N ND']; subst.
  apply insert_sorted; [now apply IH|]. intros Hi. apply N. apply in_map_iff in Hi. destruct Hi as (d & E & Hd). rewrite <- E. apply in_map. now apply sort_In.
Qed.
Lemma rank_nth l : StronglySorted lt l -> forall i v, nth_error l i = Some v -> length (filter (fun u => Nat.ltb u v) l) = i.
Proof.
  assert (Z : forall l v, Forall (lt v) l -> length (filter (fun u => Nat.ltb u v) l) = 0).
  { intros l0 v F. induction F as [|x l0 Hx _ IH]; [reflexivity|]. cbn [filter]. now rewrite (proj2 (Nat.ltb_ge x v)) by lia. }
  induction 1 as [|x l S IH F]; intros [|i] v E; cbn in E; try discriminate.
  - injection E as <-. cbn [filter]. rewrite Nat.ltb_irrefl. now apply Z.
  - cbn [filter]. assert (x < v) by (rewrite Forall_forall in F; apply F; eapply nth_error_In; exact E). rewrite (proj2 (Nat.ltb_lt x v)) by assumption. cbn [length]. f_equal. now apply IH.
Qed.

Section Top.
Variable root : region.
Variable cls : layer_cls.
Variable q : rule.
Variable eps : R.
Variable n_chunks : nat.
Variable L : nat -> nat -> list R -> R.
Variable mlog : nat -> nat -> nat -> nat -> R.
Hypothesis SO : forall r, reach root r -> sorted_scope (r_scope r).
Hypothesis RG : rg_ok root.
Hypothesis HN : (1 <= n_chunks).
Hypothesis HW : length (wts q) = length (pts q).
Hypothesis W0 : forall w, In w (wts q) -> (0 <= w)%R.
Hypothesis W1 : exists w, In w (wts q) /\ (0 < w)%R.
Hypothesis EP : (0 < eps)%R.
Hypothesis L0 : forall i f zs, (0 <= L i f zs)%R.
Notation K := (length (pts q)).
Notation W := (qpc_weights q eps L mlog root).
Hypothesis UV : univariate root.
Variable lf : nat -> nat -> R -> R.
Variable x : nat -> R.
Let leaf := leaf_value root lf x.
Notation tv := (tval root cls K W leaf).
Notation Sim := (Sim root cls q eps L mlog leaf).

Lemma leaf_regions_In r : In r (leaf_regions root) <-> In r (post_order root) /\ r_children r = [].
Proof. unfold leaf_regions. rewrite filter_In. destruct (r_children r); intuition congruence. Qed.
Lemma leaf_query r : In r (leaf_regions root) -> query (r_scope r) = [var r].
Proof.
  intros H. apply leaf_regions_In in H. destruct H as [H HC]. pose proof (UV r (po_reach root r H) HC) as HL. unfold var. destruct (query (r_scope r)) as [|v [|w l]]; try discriminate. reflexivity.
Qed.
Lemma leaf_var_same a b : In a (leaf_regions root) -> In b (leaf_regions root) -> var a = var b -> same a b = true.
Proof.
  intros Ha Hb E. pose proof (leaf_query a Ha) as Qa. pose proof (leaf_query b Hb) as Qb. apply leaf_regions_In in Ha. apply leaf_regions_In in Hb. destruct Ha as [Ha Ca], Hb as [Hb Cb].
  pose proof (po_reach root a Ha) as Ra. pose proof (po_reach root b Hb) as Rb. apply (same_iff root SO); [exact Ra|exact Rb|].
  destruct (RG a Ra) as (_ & Ea & _ & _). destruct (RG b Rb) as (_ & Eb & _ & _). destruct a as [sa ca], b as [sb cb]. cbn [r_scope r_children] in *. subst ca cb. constructor; [|rewrite Ea, Eb; tauto|constructor].
  intros v. rewrite Qa, Qb, E. tauto.
Qed.
Lemma vars_NoDup : NoDup (map var (leaf_regions root)).
Proof.
  assert (HD : distinct (leaf_regions root)) by (unfold leaf_regions; apply FOP_filter, po_distinct; assumption).
  assert (HS : forall r, In r (leaf_regions root) -> In r (leaf_regions root)) by auto. revert HS HD. generalize (leaf_regions root) at 1 3 4. intros l HS HD. induction l as [|r l IH]; cbn [map]; constructor.
  - intros Hi. apply in_map_iff in Hi. destruct Hi as (d & E & Hd). apply distinct_cons in HD. destruct HD as [N _].
    specialize (N d Hd). assert (T : same r d = true) by (apply leaf_var_same; [apply HS; now left|apply HS; now right|now symmetry]). congruence.
  - apply IH; [intros t Ht; apply HS; now right|]. apply distinct_cons in HD. apply HD.
Qed.
Lemma reach_query r : reach root r -> forall v, In v (query (r_scope r)) -> In v (query (r_scope root)).
Proof.
  induction 1 as [|r c Hr IH (p & Hp & Hc)]; intros v Hv; [exact Hv|]. apply IH. destruct (RG r Hr) as (_ & _ & _ & HP). destruct (HP p Hp) as (_ & _ & HQ). apply HQ. now exists c.
Qed.
Lemma leaf_exists r : reach root r -> forall v, In v (query (r_scope r)) -> exists d, In d (leaf_regions root) /\ var d = v.
Proof.
  induction r as [r IH] using region_ind_size. intros Hr v Hv. destruct (r_children r) as [|p ps] eqn:EC.
  - destruct (po_complete root SO r Hr) as (d & Hd & E). apply same_equal in E. inversion E as [s u ps qs A B C]; subst. cbn [r_children r_scope] in *. subst ps. inversion C; subst.
    assert (Hl : In (Region u []) (leaf_regions root)) by (apply leaf_regions_In; now split). exists (Region u []). split; [exact Hl|]. apply A in Hv. pose proof (leaf_query _ Hl) as Q. cbn [r_scope] in Q. rewrite Q in Hv. destruct Hv as [Hv|[]]. exact Hv.
  - destruct (RG r Hr) as (_ & _ & _ & HP). rewrite EC in HP. destruct (HP p (or_introl eq_refl)) as (_ & _ & HQ). apply HQ in Hv. destruct Hv as (c & Hc & Hv).
    assert (IC : is_child c r) by (exists p; split; [rewrite EC; now left|exact Hc]). apply (IH c IC); [econstructor; eassumption|exact Hv].
Qed.
Lemma leaf_vars : map var (leaf_order root) = query (r_scope root).
Proof.
  apply ssorted_ext; [apply sort_sorted, vars_NoDup|apply SO, reach_root|]. intros v. split.
  - intros Hi. apply in_map_iff in Hi. destruct Hi as (d & <- & Hd). apply (sort_In (leaf_regions root)) in Hd. pose proof (leaf_query d Hd) as Q. apply leaf_regions_In in Hd. apply (reach_query d (po_reach root d (proj1 Hd))). rewrite Q. now left.
  - intros Hv. destruct (leaf_exists root (reach_root root) v Hv) as (d & Hd & <-). apply in_map. now apply sort_In.
Qed.

Definition st_init : bstate := mkB (rev (map (fun ir : nat * region => (snd ir, (fst ir, 0))) (index_from 0 (leaf_order root)))) [length (leaf_order root)] [] 0 0.
Definition x_init : list fold := map (fun vr k => Fin (lf (fst vr) k (x (hd 0 (query (r_scope (snd vr))))))) (index_from 0 (leaf_order root)).

Lemma sim_init : Sim 1 st_init [(K, x_init)].
Proof.
  constructor.
  - cbn [st_init b_counts map snd]. unfold x_init. now rewrite map_length, index_from_length.
  - intros o [<-|[]]. reflexivity.
  - reflexivity.
  - reflexivity.
  - intros r Hr Hd. assert (HC : r_children r = []).
    { destruct (r_children r) as [|p ps] eqn:E; [reflexivity|]. destruct (RG r (po_reach root r Hr)) as (_ & _ & _ & HP). rewrite E in HP. destruct (HP p (or_introl eq_refl)) as (L2 & _). destruct p as [|c p]; [cbn in L2; lia|].
      assert (IC : is_child c r) by (exists (c :: p); split; [rewrite E; now left|now left]). pose proof (rdepth_child c r IC). lia. }
    assert (Hl : In r (leaf_regions root)) by (apply leaf_regions_In; now split). assert (Ho : In r (leaf_order root)) by (apply (sort_In (leaf_regions root)); exact Hl).
    destruct (In_nth_error _ _ Ho) as (i & Ei).
    assert (RK : var_rank root (var r) = i) by (unfold var_rank; rewrite <- leaf_vars; apply rank_nth; [apply sort_sorted, vars_NoDup|rewrite nth_error_map, Ei; reflexivity]).
    exists i, 0, x_init, (fun k => Fin (lf i k (x (var r)))). split; [|split; [reflexivity|split]].
    + cbn [st_init b_fold]. rewrite <- (app_nil_r (rev _)). apply find_fold_in.
      * exists (r, (i, 0)). split; [|apply same_refl]. apply -> in_rev. apply in_map_iff. exists (i, r). split; [reflexivity|]. apply index_from_In. split; [lia|]. now rewrite Nat.sub_0_r.
      * intros e He E. apply in_rev in He. apply in_map_iff in He. destruct He as ((j & t) & <- & Hj). cbn [fst snd] in *. apply index_from_In in Hj. rewrite Nat.sub_0_r in Hj. destruct Hj as [_ Hj].
        assert (Ht : In t (leaf_regions root)) by (apply sort_In; eapply nth_error_In; exact Hj).
        assert (VE : var t = var r).
        { apply same_equal in E. inversion E as [s u ps qs A B C]; subst. pose proof (leaf_query _ Hl) as Q1. pose proof (leaf_query _ Ht) as Q2. cbn [r_scope] in *. assert (HV : In (var (Region s ps)) (query s)) by (rewrite Q1; now left). apply A in HV. rewrite Q2 in HV. destruct HV as [HV|[]]. exact HV. }
        assert (RK' : var_rank root (var t) = j) by (unfold var_rank; rewrite <- leaf_vars; apply rank_nth; [apply sort_sorted, vars_NoDup|rewrite nth_error_map, Hj; reflexivity]).
        rewrite VE, RK in RK'. now subst j.
    + unfold x_init. rewrite nth_error_map, (index_from_nth _ 0 i r Ei). reflexivity.
    + intros k Hk. rewrite (tval_leaf root cls K W leaf r HC). unfold leaf, leaf_value. cbv zeta. fold (var r). rewrite RK. reflexivity.
Qed.
Lemma eval_steps_app a b : forall outs, eval_steps q eps n_chunks L mlog outs (a ++ b) = bind (eval_steps q eps n_chunks L mlog outs a) (fun o => eval_steps q eps n_chunks L mlog o b).
Proof. induction a as [|s a IH]; intros outs; cbn [app eval_steps bind]; [reflexivity|]. destruct (eval_step q eps n_chunks L mlog outs s); cbn [bind]; [apply IH|reflexivity]. Qed.
Lemma loop_ok n : forall h st outs, 1 <= h -> h + n = S (rdepth root) -> 1 <= n -> Sim h st outs -> exists st' ss outs',
  build_loop (post_order root) K 1 (rdepth root) cls (seq h n) st = Ok st' /\ b_steps st' = b_steps st ++ ss /\
  eval_steps q eps n_chunks L mlog outs ss = Ok outs' /\ Done root cls q eps L mlog leaf outs'.
Proof.
  induction n as [|n IH]; intros h st outs H1 HE Hn HS; [lia|]. cbn [seq build_loop].
  destruct (height_step root cls q eps n_chunks L mlog leaf SO RG HN HW W0 W1 EP L0 h st outs ltac:(lia) HS) as (st1 & s1 & o1 & E1 & S1 & V1 & Hlt & Heq). rewrite E1. cbn [bind].
  destruct n as [|n].
  - exists st1, s1, o1. cbn [seq build_loop]. split; [reflexivity|]. split; [exact S1|]. split; [exact V1|]. apply Heq. lia.
  - destruct (IH (S h) st1 o1 ltac:(lia) ltac:(lia) ltac:(lia) (Hlt ltac:(lia))) as (st2 & s2 & o2 & E2 & S2 & V2 & D2). exists st2, (s1 ++ s2), o2. split; [exact E2|]. split; [rewrite S2, S1; now rewrite app_assoc|]. split; [|exact D2]. rewrite eval_steps_app, V1. exact V2.
Qed.
Lemma build_eq : build root K 1 cls = bind (build_loop (post_order root) K 1 (rdepth root) cls (seq 1 (rdepth root)) st_init) (fun st => Ok (b_steps st)).
Proof.
  unfold build. cbv zeta. replace (existsb _ (leaf_regions root)) with false; [rewrite (po_max root); reflexivity|].
  destruct (existsb _ (leaf_regions root)) eqn:E; [|reflexivity]. apply existsb_exists in E. destruct E as (r & Hr & E). rewrite (leaf_query r Hr) in E. discriminate.
Qed.
Theorem log_likelihood_ok : r_children root <> [] -> exists v, log_likelihood q eps n_chunks L mlog root 1 cls lf x = Ok v /\ pr v = tv root 0.
Proof.
  intros NE. assert (H1 : 1 <= rdepth root) by (destruct (RG root (reach_root root)) as (_ & _ & _ & HP); destruct (r_children root) as [|p ps] eqn:E; [contradiction|]; destruct (HP p (or_introl eq_refl)) as (L2 & _); destruct p as [|c p]; [cbn in L2; lia|]; assert (IC : is_child c root) by (exists (c :: p); split; [rewrite E; now left|now left]); pose proof (rdepth_child c root IC); lia).
  destruct (loop_ok (rdepth root) 1 st_init [(K, x_init)] (le_n _) eq_refl H1 sim_init) as (st & ss & outs & E1 & E2 & E3 & (v & E4 & E5)).
  exists (v 0). split; [|exact E5]. unfold log_likelihood. rewrite build_eq, E1. cbn [bind]. cbn [st_init b_steps app] in E2. rewrite E2.
  change (map _ (index_from 0 (leaf_order root))) with x_init.
  match goal with |- bind ?X _ = _ => replace X with (Ok outs : result (list (nat * list fold))) by (symmetry; exact E3) end. cbn [bind]. rewrite E4. reflexivity.
Qed.
End Top.
