(** Class posteriors of RatSPN and Einet. *)
From Coq Require Import List Arith Bool Reals Lia Lra Permutation.
From Verif Require Import Base ScopeModel ScopeProofs CircuitModel CircuitSpec CircuitBasics CircuitEval Integral CircuitMarg CircuitProps
  SampleModel EmModel SplitModel SplitProofs LayerModel LayerSpec LayerProofs FactorModel FactorProofs FactorTop PosteriorModel PosteriorProofs
  StackModel StackSpec StackProofs StackDist StackTop StackRat StackNan StackRatTop StackEinSpec StackEin StackEinTop StackPostModel StackPostSpec StackPost.
Import ListNotations.
Local Open Scope R_scope.

Section Rat.
Variables (leaves : list module) (c : rat_cfg) (p : rat_par) (d : draw) (k : split_kind) (m : module) (s : shape) (st : stack).
Hypothesis (HL : leaves_ok leaves m s (ra_reps c)) (Hmode : rat_mode c = Ok (k, 2%nat)) (Hk : k <> ByIndex) (HR : (0 < ra_reps c)%nat).
Hypothesis (HF : rat_fine c m) (H3 : rat_no3 c m) (Est : mk_rat leaves c p d = Ok st) (Hn : (2 <= ra_root c)%nat).
Let nf := length (query (scope_of m)).
Let C0 := channels (out_shape m).
Definition rat_pre : list op := flat_map (rat_level c p k 2) (seq 0 (ra_depth c)) ++ [OMix (ra_root c) (ra_reps c) (rp_mix p)].
Lemma rat_pre_ok : shs rat_pre (rat_sh c C0 0) = mkShape 1 (ra_root c) 1 /\
  forall P q, (q < ra_root c)%nat -> sems rat_pre (rat_sh c C0 0) P 0%nat q 0%nat =
    bsum (ra_reps c) (fun r => softmax (ra_reps c) (rp_mix p 0%nat q) r *
      region (ra_depth c) (ra_outer c) k (rat_channels (ra_depth c) C0 (ra_root c) (ra_region c)) (rp_sum p) P (ra_depth c) 0 q r).
Proof.
  clear Hn.  destruct HF as (F1 & F2 & F3 & F4 & F5). pose proof (no3_accepts c m HR H3) as HA. pose proof (C0_pos leaves c m s HL) as PC.
  destruct (levels_good c p k C0 Hk PC F1 F2 HR (ra_depth c) (le_n _) HA) as [G E]. unfold rat_pre. split.
  - rewrite shs_app, E. cbn [shs semsh rat_sh features channels repetitions]. rewrite Nat.sub_diag. reflexivity.
  - intros P q Hq. rewrite sems_app, E. cbn [sems sem]. cbn [rat_sh repetitions]. apply bsum_ext. intros r Hr. f_equal.
    rewrite (levels_sem c p k C0 Hk PC F1 F2 HR P (ra_depth c) (le_n _) HA); [reflexivity|].
    repeat split; cbn [rat_sh features channels repetitions]; [rewrite Nat.sub_diag; cbn; lia| |exact Hr]. rewrite rat_ch_depth by assumption. exact Hq.
Qed.
Lemma rat_parts : k_leaf st = m /\ mk_factorize nf nf C0 (ra_depth c) (ra_reps c) (d_sizes d) (d_perms d) = Ok (k_fact st) /\
  exists de, goods (rat_pre ++ [OSum 1 1 (rp_root p)]) (rat_sh c C0 0) (rat_sh c C0 0) de /\
   assemble (rat_sh c C0 0) (rat_pre ++ [OSum 1 1 (rp_root p)]) = Ok (k_layers st).
Proof.
  destruct (rat_built leaves c p d k m s HL Hmode Hk HR HF H3) as (st' & E & El & Ef & ops & Eo & Ea). rewrite Est in E. injection E as <-.
  destruct (rat_all_good leaves c p k m s HL Hk HR HF H3) as (ops' & Eo' & G & _). rewrite Eo in Eo'. injection Eo' as <-.
  split; [exact El|]. split; [exact Ef|].
  assert (EO : ops = rat_pre ++ [OSum 1 1 (rp_root p)]).
  { unfold rat_ops in Eo. destruct HF as (_ & _ & _ & F4 & _). destruct (Nat.eqb_spec (ra_depth c) 0); [lia|]. injection Eo as Eo. rewrite <- Eo.
    unfold rat_pre. rewrite <- app_assoc. cbn [app]. destruct (Nat.ltb_spec 1 (ra_root c)); [reflexivity|lia]. }
  rewrite EO in G, Ea. eexists. split; [exact G|exact Ea].
Qed.
Local Notation cls x q := (rat_class c p k m s (fc_mat (k_fact st)) x q).
Local Notation dens x := (rat_density c p k m s (fc_mat (k_fact st)) x).
Lemma rat_post x : (forall f ch r, in_shape s f ch r -> loglik m x f ch r <> NInf) ->
  (forall q, (q < ra_root c)%nat -> 0 < cls x q) /\ 0 < dens x /\
  exists lp, stack_log_posterior (ra_root c) st x = Ok lp /\
    forall q, (q < ra_root c)%nat -> exists v, lp q = Some v /\ pr v = rat_prior c p q * cls x q / dens x.
Proof.
  intros Hfin. destruct rat_parts as (El & Ef & de & G & Ea). destruct rat_pre_ok as [Esh Ev].
  destruct (fact_holds m s (ra_depth c) (ra_reps c) d (k_fact st) (leaves_built _ _ _ _ HL) (lo_shape _ _ _ _ HL) (lo_one _ _ _ _ HL)
              (lo_reps _ _ _ _ HL) HR Ef x Hfin) as (t0 & E0 & H0).
  replace (base_shape m (ra_depth c) (ra_reps c)) with (rat_sh c C0 0) in H0
    by (unfold base_shape, rat_sh, rat_ch; now rewrite Nat.sub_0_r).
  destruct (post_value st m (ra_root c) (rat_sh c C0 0) rat_pre (rp_root p) de El Hn Esh G Ea x t0 _ E0 H0) as (A & B & lp & E1 & E2).
  assert (EQ : forall q, (q < ra_root c)%nat -> sems rat_pre (rat_sh c C0 0) (base m s (k_fact st) x) 0%nat q 0%nat = cls x q) by (intros q Hq; now rewrite Ev).
  assert (EZ : bsum (ra_root c) (fun q => softmax (ra_root c) (fun j => rp_root p 0%nat j 0%nat 0%nat) q * sems rat_pre (rat_sh c C0 0) (base m s (k_fact st) x) 0%nat q 0%nat) = dens x).
  { unfold rat_density, mixed. apply bsum_ext. intros q Hq. rewrite EQ by exact Hq. reflexivity. }
  rewrite EZ in B, E2. split; [intros q Hq; rewrite <- EQ by exact Hq; now apply A|]. split; [exact B|].
  exists lp. split; [exact E1|]. intros q Hq. destruct (E2 q Hq) as (v & V1 & V2). exists v. split; [exact V1|]. rewrite V2, EQ by exact Hq. reflexivity.
Qed.
Hypothesis Hdraw : draw_ok nf (ra_depth c) d.
Lemma rat_post_nan x i ch r : in_shape s i ch r -> loglik m x i ch r = NInf ->
  exists lp, stack_log_posterior (ra_root c) st x = Ok lp /\ forall q, lp q = None.
Proof.
  intros Hin HN. destruct rat_parts as (El & Ef & de & G & Ea). destruct rat_pre_ok as [Esh Ev]. destruct Hdraw as [Hs Hp].
  destruct (fact_nan m s (ra_depth c) (ra_reps c) d (k_fact st) (leaves_built _ _ _ _ HL) (lo_shape _ _ _ _ HL) (lo_one _ _ _ _ HL)
              (lo_reps _ _ _ _ HL) HR Hs Hp Ef x i ch r (proj1 (proj2 (proj2 (proj2 HF)))) Hin HN) as (t0 & q & E0 & S0 & N0).
  replace (base_shape m (ra_depth c) (ra_reps c)) with (rat_sh c C0 0) in S0, N0
    by (unfold base_shape, rat_sh, rat_ch; now rewrite Nat.sub_0_r).
  exact (post_nan st m (ra_root c) (rat_sh c C0 0) rat_pre (rp_root p) de El Hn Esh G Ea x t0 q E0 S0 N0).
Qed.
End Rat.

Section Ein.
Variables (leaves : list module) (c : ein_cfg) (p : ein_par) (d : draw) (m : module) (s : shape) (st : stack).
Hypothesis (HL : leaves_ok leaves m s (ei_reps c)) (Est : mk_einet leaves c p d = Ok st) (Hn : (2 <= ei_classes c)%nat).
Let nf := length (query (scope_of m)).
Let C0 := channels (out_shape m).
Let fd := ein_fdepth c nf.
Definition ein_pre : list op := ein_body c p ++
  (if (negb (ei_topdown c) && Nat.ltb 1 (ein_width c nf))%bool then [OAll] else [])
  ++ (if negb (Nat.eqb (ein_out c) (ei_classes c)) then [OSum (ei_classes c) (ei_reps c) (ep_class p)] else [])
  ++ (if Nat.ltb 1 (ei_reps c) then [OMix (ei_classes c) (ei_reps c) (ep_mix p)] else []).
Lemma ein_pre_all : ein_all c p m = ein_pre ++ [OSum 1 1 (ep_root p)].
Proof.
  unfold ein_all, ein_pre, finalize. cbn [features channels]. destruct (Nat.ltb_spec 1 (ei_classes c)); [|lia]. now rewrite <- !app_assoc.
Qed.
Lemma ein_pre_does : does ein_pre (ein_base c C0 nf) (mkShape 1 (ei_classes c) 1)
  (fun P _ q _ => bsum (ei_reps c) (fun r => softmax (ei_reps c) (ep_mix p 0%nat q) r * ein_class c p C0 nf P q r)).
Proof.
  clear Hn.  destruct (ein_ok_fine leaves c p d m s HL st Est) as (F1 & F2 & F3 & F4 & F5). pose proof (EC0_pos leaves c m s HL) as PC.
  pose proof (body_does c p C0 nf F1 F2 F4 PC F5) as A. pose proof (width_pos c C0 nf F1 F2 F4 PC F5) as WP. pose proof (out_pos c C0 nf F1 F2 F4 PC F5) as OP.
  pose proof (collapse_does c F1 F2 F4 (negb (ei_topdown c)) (ein_width c nf) (ein_out c) WP OP
    (fun E => ltac:(unfold ein_width; apply negb_false_iff in E; rewrite E; reflexivity))) as B.
  pose proof (class_does c p F1 F2 F4 (ein_out c) OP) as Cc.
  assert (M : does (if Nat.ltb 1 (ei_reps c) then [OMix (ei_classes c) (ei_reps c) (ep_mix p)] else [])
     (mkShape 1 (ei_classes c) (ei_reps c)) (mkShape 1 (ei_classes c) 1)
     (fun P f k _ => bsum (ei_reps c) (fun r => softmax (ei_reps c) (ep_mix p f k) r * P f k r))).
  { destruct (Nat.ltb_spec 1 (ei_reps c)) as [L|L].
    - split; [|split; reflexivity]. intros ds [A1 A2]. exists (mkShape 1 (ei_classes c) (ei_reps c)). split; [|split; reflexivity].
      eapply g_cons with (ds' := mkShape 1 (ei_classes c) (ei_reps c)); [|split; assumption| |reflexivity|split; reflexivity|apply g_nil].
      + unfold decl. cbn [channels features] in A1, A2. rewrite A2, Nat.eqb_refl, A1. destruct (Nat.ltb_spec (ei_classes c) 1); [lia|reflexivity].
      + split; [exact F1|]. split; [exact F4|]. split; reflexivity.
    - assert (R1 : ei_reps c = 1%nat) by lia. rewrite R1. apply does_nil; [reflexivity|].
      intros P f k r (_ & _ & Ir). cbn [repetitions] in Ir. replace r with 0%nat by lia. cbn [bsum]. rewrite softmax_one. ring. }
  eassert (D1 : does _ _ _ _).
  { eapply does_app; [exact Cc|exact M|]. intros P Q f o r H (If & Io & Ir). cbn [features channels repetitions] in If, Io, Ir.
    apply bsum_ext. intros q Hq. f_equal. apply H. repeat split; cbn; lia. }
  eassert (D2 : does _ _ _ _).
  { eapply does_app; [exact B|exact D1|]. intros P Q f o r H (If & Io & Ir). cbn [features channels repetitions] in If, Io, Ir.
    apply bsum_ext. intros q Hq. f_equal. destruct (Nat.eqb_spec (ein_out c) (ei_classes c)) as [E|E].
    - apply H. repeat split; cbn; lia.
    - apply bsum_ext. intros i Hi. f_equal. apply H. repeat split; cbn; lia. }
  clear B Cc M D1. destruct (does_app _ _ _ _ _ _ _ A D2) as (T1 & T2 & T3).
  { intros P Q f o r H (If & Io & Ir). cbn [features channels repetitions] in If, Io, Ir.
    apply bsum_ext. intros q Hq. f_equal. destruct (Nat.eqb_spec (ein_out c) (ei_classes c)) as [E|E].
    - apply bprod_ext. intros g Hg. apply H. repeat split; cbn; lia.
    - apply bsum_ext. intros i Hi. f_equal. apply bprod_ext. intros g Hg. apply H. repeat split; cbn; lia. }
  split; [exact T1|]. split; [exact T2|]. intros P f o r IN. rewrite T3 by exact IN. destruct IN as (If & Io & Ir). cbn [features channels repetitions] in If, Io, Ir.
  replace f with 0%nat by lia. apply bsum_ext. intros q Hq. f_equal. unfold ein_class, ein_out, ein_width. destruct (ei_topdown c).
  - rewrite Nat.eqb_refl. cbn [bprod]. ring.
  - reflexivity.
Qed.
Lemma ein_parts : k_leaf st = m /\ mk_factorize nf nf C0 fd (ei_reps c) (d_sizes d) (d_perms d) = Ok (k_fact st) /\ (1 <= ei_reps c)%nat /\
  exists de, goods (ein_pre ++ [OSum 1 1 (ep_root p)]) (ein_base c C0 nf) (ein_base c C0 nf) de /\
   assemble (ein_base c C0 nf) (ein_pre ++ [OSum 1 1 (ep_root p)]) = Ok (k_layers st).
Proof.
  pose proof (ein_ok_fine leaves c p d m s HL st Est) as HF.
  destruct (ein_built leaves c p d m s HL HF) as (st' & de & E & El & Ef & G & Ea). rewrite Est in E. injection E as <-.
  rewrite ein_pre_all in G, Ea. destruct HF as (_ & _ & _ & F4 & _). split; [exact El|]. split; [exact Ef|]. split; [exact F4|]. exists de. auto.
Qed.
Local Notation cls x q := (ein_class_density c p m s (fc_mat (k_fact st)) x q).
Local Notation dens x := (ein_density c p m s (fc_mat (k_fact st)) x).
Lemma ein_post x : (forall f ch r, in_shape s f ch r -> loglik m x f ch r <> NInf) ->
  (forall q, (q < ei_classes c)%nat -> 0 < cls x q) /\ 0 < dens x /\
  exists lp, stack_log_posterior (ei_classes c) st x = Ok lp /\
    forall q, (q < ei_classes c)%nat -> exists v, lp q = Some v /\ pr v = ein_prior c p q * cls x q / dens x.
Proof.
  intros Hfin. destruct ein_parts as (El & Ef & F4 & de & G & Ea). destruct ein_pre_does as (_ & Esh & Ev).
  destruct (fact_holds m s fd (ei_reps c) d (k_fact st) (leaves_built _ _ _ _ HL) (lo_shape _ _ _ _ HL) (lo_one _ _ _ _ HL)
              (lo_reps _ _ _ _ HL) F4 Ef x Hfin) as (t0 & E0 & H0).
  change (base_shape m fd (ei_reps c)) with (ein_base c C0 nf) in H0.
  destruct (post_value st m (ei_classes c) (ein_base c C0 nf) ein_pre (ep_root p) de El Hn Esh G Ea x t0 _ E0 H0) as (A & B & lp & E1 & E2).
  assert (EQ : forall q, (q < ei_classes c)%nat -> sems ein_pre (ein_base c C0 nf) (base m s (k_fact st) x) 0%nat q 0%nat = cls x q)
    by (intros q Hq; rewrite Ev by (repeat split; cbn; lia); reflexivity).
  assert (EZ : bsum (ei_classes c) (fun q => softmax (ei_classes c) (fun j => ep_root p 0%nat j 0%nat 0%nat) q * sems ein_pre (ein_base c C0 nf) (base m s (k_fact st) x) 0%nat q 0%nat) = dens x).
  { unfold ein_density, mixed. apply bsum_ext. intros q Hq. rewrite EQ by exact Hq. reflexivity. }
  rewrite EZ in B, E2. split; [intros q Hq; rewrite <- EQ by exact Hq; now apply A|]. split; [exact B|].
  exists lp. split; [exact E1|]. intros q Hq. destruct (E2 q Hq) as (v & V1 & V2). exists v. split; [exact V1|]. rewrite V2, EQ by exact Hq. reflexivity.
Qed.
Hypothesis Hdraw : draw_ok nf fd d.
Lemma ein_post_nan x i ch r : (0 < fd)%nat -> in_shape s i ch r -> loglik m x i ch r = NInf ->
  exists lp, stack_log_posterior (ei_classes c) st x = Ok lp /\ forall q, lp q = None.
Proof.
  intros Hfd Hin HN. destruct ein_parts as (El & Ef & F4 & de & G & Ea). destruct ein_pre_does as (_ & Esh & Ev). destruct Hdraw as [Hs Hp].
  destruct (fact_nan m s fd (ei_reps c) d (k_fact st) (leaves_built _ _ _ _ HL) (lo_shape _ _ _ _ HL) (lo_one _ _ _ _ HL)
              (lo_reps _ _ _ _ HL) F4 Hs Hp Ef x i ch r Hfd Hin HN) as (t0 & q & E0 & S0 & N0).
  change (base_shape m fd (ei_reps c)) with (ein_base c C0 nf) in S0, N0.
  exact (post_nan st m (ei_classes c) (ein_base c C0 nf) ein_pre (ep_root p) de El Hn Esh G Ea x t0 q E0 S0 N0).
Qed.
End Ein.
