(** Class posteriors of stacks. *)
From Coq Require Import List Arith Bool Reals Lia Lra Permutation.
From Verif Require Import Base ScopeModel ScopeProofs CircuitModel CircuitSpec CircuitBasics CircuitEval Integral CircuitMarg CircuitProps
  SampleModel EmModel SplitModel SplitProofs LayerModel LayerSpec LayerProofs FactorModel FactorProofs FactorTop PosteriorModel PosteriorProofs
  StackModel StackSpec StackProofs StackDist StackTop StackRat StackNan StackRatTop StackEinSpec StackEin StackEinTop StackPostModel StackPostSpec.
Import ListNotations.
Local Open Scope R_scope.

Lemma goods_app_inv a b ds s de : goods (a ++ b) ds s de -> exists dm, goods a ds s dm /\ goods b dm (shs a s) de.
Proof.
  revert ds s. induction a as [|o a IH]; intros ds s H; cbn [app shs] in *.
  - exists ds. split; [apply g_nil|exact H].
  - inversion H as [|? ? ? ? ds' ? A1 A2 A3 A4 A5 A6]; subst. destruct (IH _ _ A6) as (dm & G1 & G2).
    exists dm. split; [econstructor; eauto|exact G2].
Qed.
Lemma removelast_snoc {A} (l : list A) a : removelast (l ++ [a]) = l.
Proof. rewrite removelast_app by discriminate. cbn. apply app_nil_r. Qed.

Section Post.
Variables (st : stack) (m : module) (s0 : shape) (nf depth reps n : nat) (d : draw) (base0 : shape) (ops : list op) (lg : nat -> nat -> nat -> nat -> R) (de : shape).
Hypothesis (El : k_leaf st = m) (Hn : (2 <= n)%nat) (Esh : shs ops base0 = mkShape 1 n 1).
Hypothesis (G : goods (ops ++ [OSum 1 1 lg]) base0 base0 de) (Ea : assemble base0 (ops ++ [OSum 1 1 lg]) = Ok (k_layers st)).
Local Notation rl := (fun j => lg 0%nat j 0%nat 0%nat).
Lemma post_layers : exists la l, k_layers st = la ++ [l] /\ l_op l = OSum 1 1 lg /\ assemble base0 ops = Ok la.
Proof.
  destruct (goods_app_inv _ _ _ _ _ G) as (dm & G1 & G2). destruct (goods_run _ _ _ _ G1) as (la & E1 & E2 & _).
  destruct (goods_run _ _ _ _ G2) as (lb & E3 & _). rewrite assemble_app, E1 in Ea. cbn [bind] in Ea. rewrite E2 in Ea.
  assert (E3' := E3). cbn [assemble] in E3. destruct (decl (OSum 1 1 lg) dm) as [sd|]; [|discriminate]. cbn [bind] in E3. injection E3 as <-.
  rewrite E3' in Ea. cbn [bind] in Ea. injection Ea as Ea. exists la, (mkLay (OSum 1 1 lg) dm sd). auto.
Qed.
Lemma post_root : root_logits st = Ok rl.
Proof.
  destruct post_layers as (la & l & E & Eo & _). unfold root_logits. rewrite E, rev_app_distr. cbn [rev app]. now rewrite Eo.
Qed.
(** finite class log-likelihoods: the posterior is prior times class density, normalised *)
Lemma post_value x t0 P : bind (leaf_tensor m x) (fact_run (k_fact st)) = Ok t0 -> holds t0 base0 P ->
  let cls q := sems ops base0 P 0%nat q 0%nat in
  let Z := bsum n (fun q => softmax n rl q * cls q) in
  (forall q, (q < n)%nat -> 0 < cls q) /\ 0 < Z /\
  exists lp, stack_log_posterior n st x = Ok lp /\ forall q, (q < n)%nat -> exists v, lp q = Some v /\ pr v = softmax n rl q * cls q / Z.
Proof.
  intros E0 H0. cbv zeta. destruct post_layers as (la & l & E & _ & Ela).
  destruct (goods_app_inv _ _ _ _ _ G) as (dm & G1 & _). destruct (goods_run _ _ _ _ G1) as (la' & E1 & _ & Hr). rewrite Ela in E1. injection E1 as <-.
  destruct (Hr t0 P H0) as (t & Et & Ht). rewrite Esh in Ht. destruct Ht as (Es & Hv).
  assert (V : forall q, (q < n)%nat -> n_nan t 0%nat q 0%nat = false /\ 0 < sems ops base0 P 0%nat q 0%nat /\ t_ll (n_t t) 0%nat q 0%nat = lfrom (sems ops base0 P 0%nat q 0%nat)).
  { intros q Hq. apply Hv. repeat split; cbn; lia. }
  assert (CP : forall q, (q < n)%nat -> 0 < sems ops base0 P 0%nat q 0%nat) by (intros q Hq; apply V; exact Hq).
  assert (ZP : 0 < bsum n (fun q => softmax n rl q * sems ops base0 P 0%nat q 0%nat)).
  { apply bsum_pos; [lia|]. intros q Hq. apply Rmult_lt_0_compat; [apply softmax_pos; lia|apply CP, Hq]. }
  split; [exact CP|]. split; [exact ZP|].
  unfold stack_log_posterior. destruct (Nat.leb_spec n 1); [lia|]. rewrite post_root. cbn [bind]. unfold inputs_ll. rewrite El, E, removelast_snoc.
  destruct (leaf_tensor m x) as [tl|]; [|discriminate]. cbn [bind] in E0 |- *. rewrite E0. cbn [bind]. rewrite Et. cbn [bind]. rewrite Es.
  cbn [features channels repetitions]. rewrite !Nat.eqb_refl. cbn [andb]. eexists. split; [reflexivity|]. intros q Hq. cbn beta.
  rewrite anyb_false by (intros j Hj; apply V; exact Hj).
  assert (EZ : bsum n (fun j => pr (t_ll (n_t t) 0%nat j 0%nat) * pr (Fin (log_softmax n rl j))) = bsum n (fun q => softmax n rl q * sems ops base0 P 0%nat q 0%nat)).
  { apply bsum_ext. intros j Hj. destruct (V j Hj) as (_ & Q & ->). rewrite pr_lfrom by lra. cbn [pr]. rewrite exp_log_softmax by lia. ring. }
  destruct (posterior_pos n (fun j => t_ll (n_t t) 0%nat j 0%nat) (fun j => Fin (log_softmax n rl j)) q) as (v & E2 & E3).
  { rewrite EZ. exact ZP. }
  exists v. split; [exact E2|]. rewrite E3, EZ. destruct (V q Hq) as (_ & Q & ->). rewrite pr_lfrom by lra. cbn [pr]. rewrite exp_log_softmax by lia.
  f_equal. ring.
Qed.
Lemma post_nan x t0 r : bind (leaf_tensor m x) (fact_run (k_fact st)) = Ok t0 -> t_sh (n_t t0) = base0 -> some_nan t0 base0 r ->
  exists lp, stack_log_posterior n st x = Ok lp /\ forall q, lp q = None.
Proof.
  intros E0 S0 N0. destruct post_layers as (la & l & E & _ & Ela).
  destruct (goods_app_inv _ _ _ _ _ G) as (dm & G1 & _). destruct (goods_nan _ _ _ _ G1) as (la' & E1 & Hr). rewrite Ela in E1. injection E1 as <-.
  destruct (Hr t0 r S0 N0) as (t & r' & Et & Es & (f & q & (If & Iq & Ir) & Nq)). rewrite Esh in Es, If, Iq, Ir. cbn [features channels repetitions] in If, Iq, Ir.
  replace f with 0%nat in Nq by lia. replace r' with 0%nat in Nq by lia.
  unfold stack_log_posterior. destruct (Nat.leb_spec n 1); [lia|]. rewrite post_root. cbn [bind]. unfold inputs_ll. rewrite El, E, removelast_snoc.
  destruct (leaf_tensor m x) as [tl|]; [|discriminate]. cbn [bind] in E0 |- *. rewrite E0. cbn [bind]. rewrite Et. cbn [bind]. rewrite Es.
  cbn [features channels repetitions]. rewrite !Nat.eqb_refl. cbn [andb]. eexists. split; [reflexivity|]. intros q'. cbn beta.
  rewrite (anyb_true n _ q) by auto. reflexivity.
Qed.
End Post.
