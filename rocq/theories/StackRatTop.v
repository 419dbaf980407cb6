(** RatSPN as a whole. *)
From Coq Require Import List Arith Bool Reals Lia Lra Permutation.
From Verif Require Import Base ScopeModel ScopeProofs CircuitModel CircuitSpec CircuitBasics CircuitEval Integral CircuitMarg CircuitProps
  SampleModel EmModel SplitModel SplitProofs LayerModel LayerSpec LayerProofs FactorModel FactorProofs FactorTop
  StackModel StackSpec StackProofs StackDist StackTop StackRat StackNan.
Import ListNotations.
Local Open Scope R_scope.

Lemma leaves_built leaves m s reps : leaves_ok leaves m s reps -> built m.
Proof.
  intros [B E _ _ _ _]. destruct leaves as [|l0 [|l1 ls]]; [discriminate| |].
  - cbn in E. injection E as <-. now inversion B.
  - eapply (b_cat false (l0 :: l1 :: ls)); eauto.
Qed.
Lemma leaves_join leaves m s reps : leaves_ok leaves m s reps -> exists l0 rest sc, leaves = l0 :: rest /\
  join_all (map scope_of leaves) = Ok sc /\ length (query sc) = length (query (scope_of m)) /\
  channels (out_shape l0) = channels (out_shape m).
Proof.
  intros [B E _ _ _ _]. destruct leaves as [|l0 rest]; [discriminate|]. exists l0, rest.
  assert (V : Forall valid (map scope_of (l0 :: rest))).
  { apply Forall_forall. intros q Hq. apply in_map_iff in Hq. destruct Hq as (x & <- & Hx).
    rewrite Forall_forall in B. apply wf_scope, wf_wf1, built_wf, B, Hx. }
  destruct rest as [|l1 rest].
  - cbn in E. injection E as <-. exists (scope_of l0). repeat split; reflexivity.
  - unfold leaf_input, mk_cat in E. destruct (forallb _ (l0 :: l1 :: rest)); [|discriminate].
    destruct (all_pairwise_disjoint _) as [b|]; [|discriminate]. cbn [bind] in E. destruct b; [|discriminate].
    destruct (join_all _) as [sc|] eqn:J; [|discriminate]. cbn [bind] in E. injection E as <-.
    exists sc. repeat split; reflexivity.
Qed.

Section Rat.
Variables (leaves : list module) (c : rat_cfg) (p : rat_par) (d : draw) (k : split_kind) (n : nat) (m : module) (s : shape).
Hypothesis (HL : leaves_ok leaves m s (ra_reps c)) (Hmode : rat_mode c = Ok (k, n)).
Let nf := length (query (scope_of m)).
Let C0 := channels (out_shape m).
Lemma mk_rat_eq : mk_rat leaves c p d =
  if (Nat.ltb (ra_root c) 1 || Nat.ltb (ra_region c) 1 || Nat.ltb (ra_splits c) 2)%bool then Err
  else bind (mk_factorize nf nf C0 (ra_depth c) (ra_reps c) (d_sizes d) (d_perms d)) (fun fm =>
       bind (rat_ops c p k n) (fun ops => bind (assemble (fact_shape fm) ops) (fun ls => Ok (mkStack m fm ls)))).
Proof.
  destruct (leaves_join _ _ _ _ HL) as (l0 & rest & sc & El & Ej & Eq & Ec). pose proof (leaves_built _ _ _ _ HL) as Bm.
  unfold mk_rat. rewrite El. rewrite <- El. rewrite Hmode. cbn [bind fst snd]. rewrite Ej. cbn [bind].
  destruct (Nat.ltb (ra_root c) 1); [reflexivity|]. destruct (Nat.ltb (ra_region c) 1); [reflexivity|].
  rewrite Ec. pose proof (wf_cpos m (wf_wf1 m (built_wf m Bm))) as PC. destruct (Nat.ltb_spec (channels (out_shape m)) 1); [lia|].
  destruct (Nat.ltb (ra_splits c) 2); [reflexivity|]. cbn [orb].
  unfold factorize_leaves. rewrite (lo_in _ _ _ _ HL). cbn [bind]. rewrite (lo_one _ _ _ _ HL). fold nf C0.
  destruct (mk_factorize nf nf C0 _ _ _ _) as [fm|]; [|reflexivity]. cbn [bind fst snd]. reflexivity.
Qed.
End Rat.

Section Two.
Variables (leaves : list module) (c : rat_cfg) (p : rat_par) (d : draw) (k : split_kind) (m : module) (s : shape).
Hypothesis (HL : leaves_ok leaves m s (ra_reps c)) (Hmode : rat_mode c = Ok (k, 2%nat)) (Hk : k <> ByIndex) (HR : (0 < ra_reps c)%nat).
Let nf := length (query (scope_of m)).
Let C0 := channels (out_shape m).
Local Notation rat_fine := (StackSpec.rat_fine c m).
Local Notation rat_no3 := (StackSpec.rat_no3 c m).
Lemma C0_pos : (0 < C0)%nat.
Proof. exact (wf_cpos m (wf_wf1 m (built_wf m (leaves_built _ _ _ _ HL)))). Qed.
Lemma no3_accepts : rat_no3 -> forall i, (i < ra_depth c)%nat -> accepts c C0 i.
Proof.
  intros [H|[H1 H2]] i Hi; [now left|]. right. unfold rat_ch. intros (E & Hd).
  destruct (Nat.eqb_spec i 0) as [->|N]; [apply H1; split; [exact E|lia]|].
  destruct (Nat.eqb_spec i (ra_depth c)); [lia|]. apply H2. split; [exact E|lia].
Qed.
Lemma rat_all_good : rat_fine -> rat_no3 ->
  exists ops, rat_ops c p k 2 = Ok ops /\
    goods ops (rat_sh c C0 0) (rat_sh c C0 0) (mkShape 1 1 (if Nat.ltb 1 (ra_root c) then 1 else ra_reps c)) /\
    shs ops (rat_sh c C0 0) = mkShape 1 1 1 /\
    forall P, sems ops (rat_sh c C0 0) P 0%nat 0%nat 0%nat =
      mixed (ra_root c) (ra_reps c) (rp_mix p 0%nat) (fun j => rp_root p 0%nat j 0%nat 0%nat)
        (fun q r => region (ra_depth c) (ra_outer c) k (rat_channels (ra_depth c) C0 (ra_root c) (ra_region c)) (rp_sum p) P (ra_depth c) 0 q r).
Proof.
  intros (F1 & F2 & F3 & F4 & F5) H3. fold nf in F5. pose proof (no3_accepts H3) as HA. pose proof C0_pos as PC.
  unfold rat_ops. destruct (Nat.eqb_spec (ra_depth c) 0); [lia|]. eexists. split; [reflexivity|]. fold (rat_top c p).
  destruct (levels_good c p k C0 Hk PC F1 F2 HR (ra_depth c) (le_n _) HA) as [G E].
  destruct (top_good c p C0 PC F1 F2 HR F4) as [G' E'].
  split; [eapply goods_app; [exact G|rewrite E; exact G']|]. split; [rewrite shs_app, E; exact E'|].
  intros P. rewrite sems_app, E, (top_sem c p C0 PC F1 F2 HR _ F4). unfold mixed. apply bsum_ext. intros q Hq. f_equal.
  apply bsum_ext. intros r Hr. f_equal.
  rewrite (levels_sem c p k C0 Hk PC F1 F2 HR P (ra_depth c) (le_n _) HA).
  - reflexivity.
  - repeat split; cbn [rat_sh features channels repetitions]; [rewrite Nat.sub_diag; cbn; lia| |exact Hr].
    rewrite rat_ch_depth by assumption. exact Hq.
Qed.
(** construction *)
Lemma rat_built : rat_fine -> rat_no3 -> exists st, mk_rat leaves c p d = Ok st /\ k_leaf st = m /\
  mk_factorize nf nf C0 (ra_depth c) (ra_reps c) (d_sizes d) (d_perms d) = Ok (k_fact st) /\
  exists ops, rat_ops c p k 2 = Ok ops /\ assemble (rat_sh c C0 0) ops = Ok (k_layers st).
Proof.
  intros HF H3. destruct (rat_all_good HF H3) as (ops & Eo & G & _). destruct HF as (F1 & F2 & F3 & F4 & F5).
  rewrite (mk_rat_eq leaves c p d k 2 m s HL Hmode).
  destruct (Nat.ltb_spec (ra_root c) 1); [lia|]. destruct (Nat.ltb_spec (ra_region c) 1); [lia|]. destruct (Nat.ltb_spec (ra_splits c) 2); [lia|].
  cbn [orb]. fold nf C0. destruct (proj2 (mk_ok_iff nf nf C0 (ra_depth c) (ra_reps c) (d_sizes d) (d_perms d)) F5) as (fm & Ef).
  rewrite Ef. cbn [bind]. rewrite Eo. cbn [bind].
  assert (ES : fact_shape fm = rat_sh c C0 0).
  { rewrite (fact_shape_eq m (ra_depth c) (ra_reps c) d fm Ef). unfold base_shape, rat_sh, rat_ch. now rewrite Nat.sub_0_r. }
  rewrite ES. destruct (goods_run _ _ _ _ G) as (ls & Ea & _). rewrite Ea. cbn [bind].
  eexists. split; [reflexivity|]. cbn [k_leaf k_fact k_layers]. split; [reflexivity|]. split; [reflexivity|]. exists ops. split; [reflexivity|exact Ea].
Qed.

Lemma assemble_app ds a b : assemble ds (a ++ b) =
  bind (assemble ds a) (fun la => bind (assemble (top_shape ds la) b) (fun lb => Ok (la ++ lb))).
Proof.
  revert ds. induction a as [|o a IH]; intros ds; cbn [app assemble bind].
  - unfold top_shape. cbn [map last]. destruct (assemble ds b); reflexivity.
  - destruct (decl o ds) as [s'|]; [|reflexivity]. cbn [bind]. rewrite IH. destruct (assemble s' a) as [la|]; [|reflexivity]. cbn [bind].
    assert (T : top_shape ds (mkLay o ds s' :: la) = top_shape s' la).
    { unfold top_shape. cbn [map l_out]. destruct la as [|l la]; [reflexivity|]. cbn [map].
      change (last (l_out l :: map l_out la) ds = last (l_out l :: map l_out la) s').
      clear. generalize (l_out l) as a. induction (map l_out la) as [|b q IH]; intros a; [reflexivity|exact (IH b)]. }
    rewrite T. destruct (assemble (top_shape s' la) b); reflexivity.
Qed.
Lemma level_reject i : (i < ra_depth c)%nat -> (1 <= ra_root c)%nat -> (1 <= ra_region c)%nat -> ~ accepts c C0 i ->
  assemble (rat_sh c C0 i) (rat_level c p k 2 i) = Err.
Proof.
  intros Hi H1 H2 NA. unfold rat_level. cbn [assemble]. unfold decl at 1. cbn [features channels repetitions rat_sh].
  destruct (ra_outer c) eqn:EO; [exfalso; apply NA; now left|].
  assert (PC := rat_ch_pos c C0 C0_pos H1 H2 i).
  assert (F1 : Nat.eqb (2 ^ (ra_depth c - i)) 1 = false).
  { apply Nat.eqb_neq. rewrite pow_half by lia. pose proof (pow_pos (ra_depth c - i - 1)). lia. }
  rewrite F1. rewrite (fdiv c C0 C0_pos H1 H2 HR i Hi). rewrite ew_check_pow by exact PC.
  destruct (Nat.eqb_spec (rat_ch c C0 i) 3) as [E|E]; [|exfalso; apply NA; right; intros (A & _); contradiction].
  destruct (Nat.leb_spec 1 (ra_depth c - S i)) as [L|L]; [reflexivity|]. exfalso. apply NA. right. lia.
Qed.
Lemma rat_rejected : rat_fine -> ~ rat_no3 -> mk_rat leaves c p d = Err.
Proof.
  intros (F1 & F2 & F3 & F4 & F5) N3.
  rewrite (mk_rat_eq leaves c p d k 2 m s HL Hmode).
  destruct (Nat.ltb_spec (ra_root c) 1); [lia|]. destruct (Nat.ltb_spec (ra_region c) 1); [lia|]. destruct (Nat.ltb_spec (ra_splits c) 2); [lia|].
  cbn [orb]. fold nf C0. destruct (proj2 (mk_ok_iff nf nf C0 (ra_depth c) (ra_reps c) (d_sizes d) (d_perms d)) F5) as (fm & Ef).
  rewrite Ef. cbn [bind]. unfold rat_ops. destruct (Nat.eqb_spec (ra_depth c) 0); [lia|]. cbn [bind]. fold (rat_top c p).
  assert (ES : fact_shape fm = rat_sh c C0 0).
  { rewrite (fact_shape_eq m (ra_depth c) (ra_reps c) d fm Ef). unfold base_shape, rat_sh, rat_ch. now rewrite Nat.sub_0_r. }
  rewrite ES.
  assert (Bad : exists i, (i < ra_depth c)%nat /\ ~ accepts c C0 i /\ forall j, (j < i)%nat -> accepts c C0 j).
  { unfold rat_no3 in N3. destruct (ra_outer c) eqn:EO; [exfalso; apply N3; now left|].
    destruct (Nat.eq_dec C0 3) as [E3|E3].
    - destruct (Nat.le_gt_cases 2 (ra_depth c)) as [L|L].
      + exists 0%nat. split; [lia|]. split; [|lia]. intros [Q|Q]; [congruence|]. apply Q. unfold rat_ch. cbn. split; [exact E3|lia].
      + exfalso. apply N3. right. split; lia.
    - assert (HR3 : ra_region c = 3%nat /\ (3 <= ra_depth c)%nat).
      { destruct (Nat.eq_dec (ra_region c) 3) as [Q|Q]; [|exfalso; apply N3; right; split; intros (A & B); contradiction].
        destruct (Nat.le_gt_cases 3 (ra_depth c)); [auto|exfalso; apply N3; right; split; lia]. }
      exists 1%nat. split; [lia|]. split.
      + intros [Q|Q]; [congruence|]. apply Q. unfold rat_ch. destruct (Nat.eqb_spec 1 0); [lia|]. destruct (Nat.eqb_spec 1 (ra_depth c)); [lia|]. split; [apply HR3|lia].
      + intros j Hj. right. intros (A & _). unfold rat_ch in A. replace j with 0%nat in A by lia. cbn in A. contradiction. }
  destruct Bad as (i & Hi & NA & HA).
  assert (SP : seq 0 (ra_depth c) = seq 0 i ++ i :: seq (S i) (ra_depth c - S i)).
  { replace (ra_depth c) with (i + S (ra_depth c - S i))%nat at 1 by lia. rewrite seq_app. reflexivity. }
  rewrite SP, flat_map_app. cbn [flat_map]. rewrite <- !app_assoc, assemble_app.
  destruct (levels_good c p k C0 Hk C0_pos F1 F2 HR i ltac:(lia) HA) as [G _].
  destruct (goods_run _ _ _ _ G) as (la & -> & Et & _). cbn [bind]. rewrite Et, assemble_app.
  rewrite (level_reject i Hi F1 F2 NA). reflexivity.
Qed.

(** value and distribution *)
Hypothesis Hdraw : draw_ok nf (ra_depth c) d.
Local Notation rat_density fm := (StackSpec.rat_density c p k m s (fc_mat fm)).
Lemma rat_value st x : rat_fine -> rat_no3 -> mk_rat leaves c p d = Ok st ->
  (forall f ch r, in_shape s f ch r -> loglik m x f ch r <> NInf) ->
  exists t, stack_ll st x = Ok t /\ t_sh (n_t t) = mkShape 1 1 1 /\
    0 < rat_density (k_fact st) x /\ nval t 0 0 0 = FFin (ln (rat_density (k_fact st) x)).
Proof.
  intros HF H3 Est Hfin. destruct (rat_built HF H3) as (st' & E & El & Ef & ops & Eo & Ea).
  rewrite Est in E. injection E as <-. destruct (rat_all_good HF H3) as (ops' & Eo' & G & Esh & Ev).
  rewrite Eo in Eo'. injection Eo' as <-.
  destruct (goods_run _ _ _ _ G) as (ls & Ea' & _ & Hr). rewrite Ea in Ea'. injection Ea' as <-.
  unfold stack_ll. rewrite El. 
  destruct (fact_holds m s (ra_depth c) (ra_reps c) d (k_fact st) (leaves_built _ _ _ _ HL) (lo_shape _ _ _ _ HL) (lo_one _ _ _ _ HL)
              (lo_reps _ _ _ _ HL) HR Ef x Hfin) as (t0 & E0 & H0).
  unfold leaf_tensor in *. rewrite (lo_shape _ _ _ _ HL) in *. cbn [bind] in *. rewrite E0. cbn [bind].
  replace (base_shape m (ra_depth c) (ra_reps c)) with (rat_sh c C0 0) in H0
    by (unfold base_shape, rat_sh, rat_ch; now rewrite Nat.sub_0_r).
  destruct (Hr t0 _ H0) as (t & -> & Ht). exists t. split; [reflexivity|]. rewrite Esh in Ht. pose proof Ht as (Es & Hv).
  split; [exact Es|]. destruct (Hv 0%nat 0%nat 0%nat) as (N & Q & V); [repeat split; cbn; lia|].
  rewrite Ev in Q, V. change (base m s (k_fact st) x) with (group_prob nf (fc_mat (k_fact st)) (fun i ch r => pr (loglik m x i ch (bidx (repetitions s) r)))) in Q, V.
  split; [exact Q|]. unfold nval. rewrite N, V. fold C0 nf. now rewrite lfrom_Fin.
Qed.
Lemma rat_dist st D : rat_fine -> rat_no3 -> mk_rat leaves c p d = Ok st -> leaves_norm D m ->
  is_dist D (query (scope_of m)) (fun x => lfrom (rat_density (k_fact st) x)) /\ forall x, 0 <= rat_density (k_fact st) x.
Proof.
  intros HF H3 Est Hn. destruct (rat_built HF H3) as (st' & E & El & Ef & ops & Eo & Ea).
  rewrite Est in E. injection E as <-. destruct (rat_all_good HF H3) as (ops' & Eo' & G & Esh & Ev).
  rewrite Eo in Eo'. injection Eo' as <-. destruct Hdraw as [Hs Hp].
  pose proof (base_dinv m s (ra_depth c) (ra_reps c) d (k_fact st) (leaves_built _ _ _ _ HL) (lo_aligned _ _ _ _ HL) (lo_shape _ _ _ _ HL)
    (lo_one _ _ _ _ HL) (lo_reps _ _ _ _ HL) HR Hs Hp Ef D Hn) as B.
  replace (base_shape m (ra_depth c) (ra_reps c)) with (rat_sh c C0 0) in B
    by (unfold base_shape, rat_sh, rat_ch; now rewrite Nat.sub_0_r).
  pose proof (goods_dinv D _ _ _ _ _ _ _ G B) as [N I _ Cv]. rewrite Esh in N, I, Cv.
  assert (IN : in_shape (mkShape 1 1 1) 0 0 0) by (repeat split; cbn; lia).
  split.
  - specialize (I 0%nat 0%nat 0%nat IN). eapply is_dist_equiv; [|eapply is_dist_ext; [|exact I]].
    + intros v. rewrite (Cv 0%nat v ltac:(cbn; lia)). cbn [features]. split; [intros Hv; exists 0%nat; split; [lia|exact Hv]|].
      intros (f & Hf & Hv). replace f with 0%nat in Hv by lia. exact Hv.
    + intros x. cbn beta. f_equal. rewrite Ev. reflexivity.
  - intros x. specialize (N x 0%nat 0%nat 0%nat IN). rewrite Ev in N. exact N.
Qed.
Lemma rat_nan st x i ch r : rat_fine -> rat_no3 -> mk_rat leaves c p d = Ok st ->
  in_shape s i ch r -> loglik m x i ch r = NInf ->
  exists t, stack_ll st x = Ok t /\ t_sh (n_t t) = mkShape 1 1 1 /\ nval t 0 0 0 = FNan.
Proof.
  intros HF H3 Est Hin HN. destruct (rat_built HF H3) as (st' & E & El & Ef & ops & Eo & Ea).
  rewrite Est in E. injection E as <-. destruct (rat_all_good HF H3) as (ops' & Eo' & G & Esh & Ev).
  rewrite Eo in Eo'. injection Eo' as <-. destruct Hdraw as [Hs Hp].
  destruct (goods_nan _ _ _ _ G) as (ls & Ea' & Hr). rewrite Ea in Ea'. injection Ea' as <-.
  destruct HF as (F1 & F2 & F3 & F4 & F5).
  destruct (fact_nan m s (ra_depth c) (ra_reps c) d (k_fact st) (leaves_built _ _ _ _ HL) (lo_shape _ _ _ _ HL) (lo_one _ _ _ _ HL)
              (lo_reps _ _ _ _ HL) HR Hs Hp Ef x i ch r F4 Hin HN) as (t0 & q & E0 & S0 & N0).
  replace (base_shape m (ra_depth c) (ra_reps c)) with (rat_sh c C0 0) in S0, N0
    by (unfold base_shape, rat_sh, rat_ch; now rewrite Nat.sub_0_r).
  unfold stack_ll. rewrite El. unfold leaf_tensor in *. rewrite (lo_shape _ _ _ _ HL) in *. cbn [bind] in *. rewrite E0. cbn [bind].
  destruct (Hr t0 q S0 N0) as (t & r' & -> & St & (f & ch' & (If & Ic & Ir) & Nt)). exists t. split; [reflexivity|]. rewrite Esh in *.
  split; [exact St|]. cbn [features channels repetitions] in If, Ic, Ir. replace f with 0%nat in Nt by lia. replace ch' with 0%nat in Nt by lia.
  replace r' with 0%nat in Nt by lia. unfold nval. now rewrite Nt.
Qed.
End Two.

(** three or more parts: nothing is evaluated *)
Lemma rat_many leaves c p d k n m s st x : leaves_ok leaves m s (ra_reps c) -> rat_mode c = Ok (k, n) -> (3 <= n)%nat ->
  mk_rat leaves c p d = Ok st -> stack_ll st x = Err.
Proof.
  intros HL Hmode Hn E. rewrite (mk_rat_eq leaves c p d k n m s HL Hmode) in E.
  destruct (_ || _)%bool; [discriminate|]. destruct (mk_factorize _ _ _ _ _ _ _) as [fm|] eqn:Ef; [|discriminate]. cbn [bind] in E.
  unfold rat_ops in E. destruct (Nat.eqb_spec (ra_depth c) 0) as [|Hd]; [discriminate|]. cbn [bind] in E.
  destruct (assemble _ _) as [ls|] eqn:Ea; [|discriminate]. cbn [bind] in E. injection E as <-.
  unfold stack_ll. cbn [k_leaf k_fact k_layers]. destruct (leaf_tensor m x) as [t|]; [|reflexivity]. cbn [bind].
  destruct (fact_run fm t) as [t0|]; [|reflexivity]. cbn [bind].
  replace (ra_depth c) with (S (ra_depth c - 1)) in Ea by lia.
  apply (levels_fail c p k n Hn (ra_depth c - 1) 0 (fact_shape fm) ls (rat_top c p) t0); [lia| |].
  - exact Ea.
  - rewrite (fact_shape_eq m (ra_depth c) (ra_reps c) d fm Ef). cbn [base_shape features]. replace (S (ra_depth c - 1)) with (ra_depth c) by lia.
    pose proof (pow_pos (ra_depth c)). lia.
Qed.
