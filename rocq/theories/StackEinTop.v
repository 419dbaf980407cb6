(** Einet: construction, value, distribution. *)
From Coq Require Import List Arith Bool Reals Lia Lra Permutation.
From Verif Require Import Base ScopeModel ScopeProofs CircuitModel CircuitSpec CircuitBasics CircuitEval Integral CircuitMarg CircuitProps
  SampleModel EmModel SplitModel SplitProofs LayerModel LayerSpec LayerProofs FactorModel FactorProofs FactorTop
  StackModel StackSpec StackProofs StackDist StackTop StackRat StackNan StackRatTop StackEinSpec StackEin.
Import ListNotations.
Local Open Scope R_scope.

Section Ein.
Variables (leaves : list module) (c : ein_cfg) (p : ein_par) (d : draw) (m : module) (s : shape).
Hypothesis HL : leaves_ok leaves m s (ei_reps c).
Let nf := length (query (scope_of m)).
Let C0 := channels (out_shape m).
Let fd := ein_fdepth c nf.
Lemma EC0_pos : (0 < C0)%nat.
Proof. exact (wf_cpos m (wf_wf1 m (built_wf m (leaves_built _ _ _ _ HL)))). Qed.
Lemma fd_le : (2 ^ ei_depth c <= nf)%nat -> (2 ^ fd <= nf)%nat.
Proof.
  intros H. unfold fd, ein_fdepth. destruct (ei_topdown c); [exact H|]. apply Nat.log2_spec. pose proof (pow_pos (ei_depth c)). lia.
Qed.
Lemma mk_einet_eq : mk_einet leaves c p d =
  if (Nat.ltb (ei_classes c) 1 || Nat.ltb (ei_sums c) 1 || Nat.ltb (ei_leaves c) 1 || Nat.ltb (ei_reps c) 1 || Nat.ltb nf (2 ^ ei_depth c))%bool then Err
  else bind (mk_factorize nf nf C0 fd (ei_reps c) (d_sizes d) (d_perms d)) (fun fm =>
       bind (assemble (fact_shape fm) (ein_body c p)) (fun ls =>
       bind (assemble (top_shape (fact_shape fm) ls) (finalize c p (negb (ei_topdown c)) (top_shape (fact_shape fm) ls))) (fun top =>
       Ok (mkStack m fm (ls ++ top))))).
Proof.
  destruct (leaves_join _ _ _ _ HL) as (l0 & rest & sc & El & Ej & Eq & Ec). unfold mk_einet.
  destruct (Nat.ltb (ei_classes c) 1); [reflexivity|]. destruct (Nat.ltb (ei_sums c) 1); [reflexivity|].
  destruct (Nat.ltb (ei_leaves c) 1); [reflexivity|]. destruct (Nat.ltb (ei_reps c) 1); [reflexivity|]. cbn [orb].
  rewrite Ej. cbn [bind]. rewrite Eq. fold nf. destruct (Nat.ltb_spec nf (2 ^ ei_depth c)) as [|L]; [reflexivity|].
  replace (if ei_topdown c then ei_depth c else if Nat.ltb 1 nf then Nat.log2 nf else 0%nat) with fd.
  2:{ unfold fd, ein_fdepth. destruct (ei_topdown c); [reflexivity|]. destruct (Nat.ltb_spec 1 nf) as [|L']; [reflexivity|].
      pose proof (pow_pos (ei_depth c)). replace nf with 1%nat by lia. reflexivity. }
  unfold factorize_leaves. rewrite (lo_in _ _ _ _ HL). cbn [bind]. rewrite (lo_one _ _ _ _ HL). fold nf C0.
  destruct (mk_factorize nf nf C0 fd _ _ _) as [fm|]; [|reflexivity]. cbn [bind fst snd]. reflexivity.
Qed.
Definition ein_all : list op := ein_body c p ++ finalize c p (negb (ei_topdown c)) (mkShape (ein_width c nf) (ein_out c) (ei_reps c)).
Lemma ein_all_does : ein_fine c m ->
  does ein_all (ein_base c C0 nf) (mkShape 1 1 1)
   (fun P _ _ _ => mixed (ei_classes c) (ei_reps c) (ep_mix p 0%nat) (fun j => ep_root p 0%nat j 0%nat 0%nat) (ein_class c p C0 nf P)).
Proof.
  intros (F1 & F2 & F3 & F4 & F5). fold nf in F5.
  pose proof (body_does c p C0 nf F1 F2 F4 EC0_pos F5) as A. pose proof (final_does c p C0 nf F1 F2 F4 EC0_pos F5) as B.
  pose proof (width_pos c C0 nf F1 F2 F4 EC0_pos F5) as WP. pose proof (out_pos c C0 nf F1 F2 F4 EC0_pos F5) as OP.
  destruct (does_app _ _ _ _ _ _ _ A B) as (D1 & D2 & D3).
  { intros P Q f o r H _. unfold mixed. apply bsum_ext. intros k Hk. f_equal. apply bsum_ext. intros q Hq. f_equal.
    destruct (Nat.eqb_spec (ein_out c) (ei_classes c)) as [E|E].
    - apply bprod_ext. intros g Hg. apply H. repeat split; cbn; lia.
    - apply bsum_ext. intros i Hi. f_equal. apply bprod_ext. intros g Hg. apply H. repeat split; cbn; lia. }
  split; [exact D1|]. split; [exact D2|]. intros P f o r IN. rewrite D3 by exact IN.
  unfold mixed. apply bsum_ext. intros k Hk. f_equal. apply bsum_ext. intros q Hq. f_equal.
  unfold ein_class, ein_out, ein_width. destruct (ei_topdown c).
  - rewrite Nat.eqb_refl. cbn [bprod]. ring.
  - reflexivity.
Qed.
Lemma ein_base_shape : base_shape m fd (ei_reps c) = ein_base c C0 nf.
Proof. reflexivity. Qed.
Lemma ein_built : ein_fine c m -> exists st de, mk_einet leaves c p d = Ok st /\ k_leaf st = m /\
  mk_factorize nf nf C0 fd (ei_reps c) (d_sizes d) (d_perms d) = Ok (k_fact st) /\
  goods ein_all (ein_base c C0 nf) (ein_base c C0 nf) de /\ assemble (ein_base c C0 nf) ein_all = Ok (k_layers st).
Proof.
  intros HF. pose proof HF as (F1 & F2 & F3 & F4 & F5). fold nf in F5. rewrite mk_einet_eq.
  destruct (Nat.ltb_spec (ei_classes c) 1); [lia|]. destruct (Nat.ltb_spec (ei_sums c) 1); [lia|].
  destruct (Nat.ltb_spec (ei_leaves c) 1); [lia|]. destruct (Nat.ltb_spec (ei_reps c) 1); [lia|]. destruct (Nat.ltb_spec nf (2 ^ ei_depth c)); [lia|].
  cbn [orb]. destruct (proj2 (mk_ok_iff nf nf C0 fd (ei_reps c) (d_sizes d) (d_perms d)) (fd_le F5)) as (fm & Ef).
  rewrite Ef. cbn [bind]. rewrite (fact_shape_eq m fd (ei_reps c) d fm Ef), ein_base_shape.
  destruct (body_does c p C0 nf F1 F2 F4 EC0_pos F5) as (B1 & B2 & _).
  (* the declared shape of the body is its actual shape *)
  assert (GB : goods (ein_body c p) (ein_base c C0 nf) (ein_base c C0 nf) (mkShape (ein_width c nf) (ein_out c) (ei_reps c))).
  { destruct (B1 (ein_base c C0 nf)) as (de & G & [A1 A2]); [split; reflexivity|].
    assert (RD : forall ops ds s0 de0, goods ops ds s0 de0 -> repetitions ds = ei_reps c ->
       (forall o, In o ops -> match o with OSum _ nr _ | OLin _ nr _ | OEin _ _ nr _ => nr = ei_reps c | _ => False end) -> repetitions de0 = ei_reps c).
    { induction 1 as [|o rest ds s0 ds' de0 Dd _ _ _ _ _ IH]; intros Rd HO; [exact Rd|]. apply IH; [|intros o' Ho'; apply HO; now right].
      specialize (HO o (or_introl eq_refl)). unfold decl in Dd. destruct o as [| | |co nr lg|sc co nr lg|]; try contradiction; cbv zeta in Dd.
      - destruct (Nat.ltb co 1); [discriminate|]. injection Dd as <-. exact HO.
      - destruct (Nat.ltb _ 2); [discriminate|]. destruct (negb _); [discriminate|]. destruct (Nat.ltb co 1); [discriminate|]. injection Dd as <-. exact HO.
      - destruct (Nat.ltb _ 2); [discriminate|]. destruct (negb _); [discriminate|]. destruct (Nat.ltb co 1); [discriminate|]. injection Dd as <-. exact HO. }
    assert (RE : repetitions de = ei_reps c).
    { apply (RD _ _ _ _ G); [reflexivity|]. intros o Ho. unfold ein_body, ein_topdown_ops, ein_bottomup_ops in Ho.
      destruct (ei_topdown c), (Nat.eqb (ei_depth c) 0); try (destruct Ho as [<-|[]]; reflexivity);
      apply in_map_iff in Ho; destruct Ho as (i & <- & _); unfold ein_layer; destruct (ei_type c); reflexivity. }
    destruct de as [df dc dr]. cbn [features channels repetitions] in A1, A2, RE. subst. exact G. }
  destruct (final_does c p C0 nf F1 F2 F4 EC0_pos F5) as (T1 & _ & _).
  destruct (T1 (mkShape (ein_width c nf) (ein_out c) (ei_reps c))) as (de & GT & _); [split; reflexivity|].
  assert (G : goods ein_all (ein_base c C0 nf) (ein_base c C0 nf) de) by (eapply goods_app; [exact GB|rewrite B2; exact GT]).
  destruct (goods_run _ _ _ _ GB) as (la & Ea & Et & _). rewrite Ea. cbn [bind]. rewrite Et.
  destruct (goods_run _ _ _ _ GT) as (lb & Eb & _). rewrite Eb. cbn [bind].
  eexists. exists de. split; [reflexivity|]. cbn [k_leaf k_fact k_layers]. split; [reflexivity|]. split; [reflexivity|]. split; [exact G|].
  unfold ein_all. rewrite assemble_app, Ea. cbn [bind]. rewrite Et, Eb. reflexivity.
Qed.
Lemma ein_ok_fine st : mk_einet leaves c p d = Ok st -> ein_fine c m.
Proof.
  rewrite mk_einet_eq. destruct (_ || _)%bool eqn:B; [discriminate|]. intros _. rewrite !orb_false_iff, !Nat.ltb_ge in B. unfold ein_fine. fold nf. tauto.
Qed.

Hypothesis Hdraw : draw_ok nf fd d.
Local Notation dens st := (ein_density c p m s (fc_mat (k_fact st))).
Lemma ein_value st x : mk_einet leaves c p d = Ok st ->
  (forall f ch r, in_shape s f ch r -> loglik m x f ch r <> NInf) ->
  exists t, stack_ll st x = Ok t /\ t_sh (n_t t) = mkShape 1 1 1 /\ 0 < dens st x /\ nval t 0 0 0 = FFin (ln (dens st x)).
Proof.
  intros Est Hfin. pose proof (ein_ok_fine st Est) as HF. destruct (ein_built HF) as (st' & de & E & El & Ef & G & Ea).
  rewrite Est in E. injection E as <-. destruct (ein_all_does HF) as (_ & Esh & Ev). destruct HF as (F1 & F2 & F3 & F4 & F5).
  destruct (goods_run _ _ _ _ G) as (ls & Ea' & _ & Hr). rewrite Ea in Ea'. injection Ea' as <-.
  unfold stack_ll. rewrite El.
  destruct (fact_holds m s fd (ei_reps c) d (k_fact st) (leaves_built _ _ _ _ HL) (lo_shape _ _ _ _ HL) (lo_one _ _ _ _ HL)
              (lo_reps _ _ _ _ HL) F4 Ef x Hfin) as (t0 & E0 & H0).
  unfold leaf_tensor in *. rewrite (lo_shape _ _ _ _ HL) in *. cbn [bind] in *. rewrite E0. cbn [bind].
  rewrite ein_base_shape in H0. destruct (Hr t0 _ H0) as (t & -> & Ht). exists t. split; [reflexivity|]. rewrite Esh in Ht. pose proof Ht as (Es & Hv).
  split; [exact Es|]. destruct (Hv 0%nat 0%nat 0%nat) as (N & Q & V); [repeat split; cbn; lia|].
  rewrite Ev in Q, V by (repeat split; cbn; lia). change (mixed _ _ _ _ _) with (dens st x) in Q, V.
  split; [exact Q|]. unfold nval. rewrite N, V. now rewrite lfrom_Fin.
Qed.
Lemma ein_dist st D : mk_einet leaves c p d = Ok st -> leaves_norm D m ->
  is_dist D (query (scope_of m)) (fun x => lfrom (dens st x)) /\ forall x, 0 <= dens st x.
Proof.
  intros Est Hn. pose proof (ein_ok_fine st Est) as HF. destruct (ein_built HF) as (st' & de & E & El & Ef & G & Ea).
  rewrite Est in E. injection E as <-. destruct (ein_all_does HF) as (_ & Esh & Ev). destruct HF as (F1 & F2 & F3 & F4 & F5). destruct Hdraw as [Hs Hp].
  pose proof (base_dinv m s fd (ei_reps c) d (k_fact st) (leaves_built _ _ _ _ HL) (lo_aligned _ _ _ _ HL) (lo_shape _ _ _ _ HL)
    (lo_one _ _ _ _ HL) (lo_reps _ _ _ _ HL) F4 Hs Hp Ef D Hn) as B. rewrite ein_base_shape in B.
  pose proof (goods_dinv D _ _ _ _ _ _ _ G B) as [N I _ Cv]. rewrite Esh in N, I, Cv.
  assert (IN : in_shape (mkShape 1 1 1) 0 0 0) by (repeat split; cbn; lia).
  split.
  - specialize (I 0%nat 0%nat 0%nat IN). eapply is_dist_equiv; [|eapply is_dist_ext; [|exact I]].
    + intros v. rewrite (Cv 0%nat v ltac:(cbn; lia)). cbn [features]. split; [intros Hv; exists 0%nat; split; [lia|exact Hv]|].
      intros (f & Hf & Hv). replace f with 0%nat in Hv by lia. exact Hv.
    + intros x. cbn beta. f_equal. rewrite Ev by exact IN. reflexivity.
  - intros x. specialize (N x 0%nat 0%nat 0%nat IN). rewrite Ev in N by exact IN. exact N.
Qed.
Lemma ein_nan st x i ch r : mk_einet leaves c p d = Ok st -> (0 < fd)%nat ->
  in_shape s i ch r -> loglik m x i ch r = NInf ->
  exists t, stack_ll st x = Ok t /\ t_sh (n_t t) = mkShape 1 1 1 /\ nval t 0 0 0 = FNan.
Proof.
  intros Est Hfd Hin HN. pose proof (ein_ok_fine st Est) as HF. destruct (ein_built HF) as (st' & de & E & El & Ef & G & Ea).
  rewrite Est in E. injection E as <-. destruct (ein_all_does HF) as (_ & Esh & Ev). destruct HF as (F1 & F2 & F3 & F4 & F5). destruct Hdraw as [Hs Hp].
  destruct (goods_nan _ _ _ _ G) as (ls & Ea' & Hr). rewrite Ea in Ea'. injection Ea' as <-.
  destruct (fact_nan m s fd (ei_reps c) d (k_fact st) (leaves_built _ _ _ _ HL) (lo_shape _ _ _ _ HL) (lo_one _ _ _ _ HL)
              (lo_reps _ _ _ _ HL) F4 Hs Hp Ef x i ch r Hfd Hin HN) as (t0 & q & E0 & S0 & N0).
  rewrite ein_base_shape in S0, N0.
  unfold stack_ll. rewrite El. unfold leaf_tensor in *. rewrite (lo_shape _ _ _ _ HL) in *. cbn [bind] in *. rewrite E0. cbn [bind].
  destruct (Hr t0 q S0 N0) as (t & r' & -> & St & (f & ch' & (If & Ic & Ir) & Nt)). exists t. split; [reflexivity|]. rewrite Esh in *.
  split; [exact St|]. cbn [features channels repetitions] in If, Ic, Ir. replace f with 0%nat in Nt by lia. replace ch' with 0%nat in Nt by lia.
  replace r' with 0%nat in Nt by lia. unfold nval. now rewrite Nt.
Qed.
End Ein.
