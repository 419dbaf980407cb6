(** Stacks of layers on a Factorize layer. *)
From Coq Require Import List Arith Bool Reals Lia Lra Permutation.
From Verif Require Import Base ScopeModel ScopeProofs CircuitModel CircuitSpec CircuitBasics CircuitEval Integral CircuitMarg CircuitProps
  SampleModel EmModel SplitModel SplitProofs LayerModel LayerSpec LayerProofs FactorModel FactorProofs FactorTop
  StackModel StackSpec StackProofs StackDist.
Import ListNotations.
Local Open Scope R_scope.

(** ** composing layers *)
Fixpoint sems (ops : list op) (s : shape) (P : nat -> nat -> nat -> R) : nat -> nat -> nat -> R :=
  match ops with [] => P | o :: rest => sems rest (semsh o s) (sem o s P) end.
Fixpoint shs (ops : list op) (s : shape) : shape := match ops with [] => s | o :: rest => shs rest (semsh o s) end.
Fixpoint semvs (ops : list op) (s : shape) (all : list nat) (vs : nat -> nat -> list nat) : nat -> nat -> list nat :=
  match ops with [] => vs | o :: rest => semvs rest (semsh o s) all (semvars o s all vs) end.
Lemma sems_app a b s P : sems (a ++ b) s P = sems b (shs a s) (sems a s P).
Proof. revert s P. induction a as [|o a IH]; intros s P; [reflexivity|]. cbn [app sems shs]. apply IH. Qed.
Lemma shs_app a b s : shs (a ++ b) s = shs b (shs a s).
Proof. revert s. induction a as [|o a IH]; intros s; [reflexivity|]. cbn [app shs]. apply IH. Qed.

Definition agree (ds s : shape) : Prop := features ds = features s /\ channels ds = channels s.
Definition mix_ok (o : op) (s : shape) : Prop := match o with OMix _ _ _ => features s = 1%nat | _ => True end.
(** [goods ops ds s de]: layers [ops] can be stacked on declared shape [ds], actual shape
    [s]; the declared shape of the result is [de] *)
Inductive goods : list op -> shape -> shape -> shape -> Prop :=
| g_nil ds s : goods [] ds s ds
| g_cons o rest ds s ds' de : decl o ds = Ok ds' -> agree ds s -> fits o s ds' -> mix_ok o s -> agree ds' (semsh o s) ->
    goods rest ds' (semsh o s) de -> goods (o :: rest) ds s de.
Lemma goods_app a b ds s dm de : goods a ds s dm -> goods b dm (shs a s) de -> goods (a ++ b) ds s de.
Proof. induction 1; intros Hb; cbn [app shs] in *; [exact Hb|]. econstructor; eauto. Qed.

Lemma goods_run ops ds s de : goods ops ds s de ->
  exists ls, assemble ds ops = Ok ls /\ top_shape ds ls = de /\
    forall t P, holds t s P -> exists t', run_all ls t = Ok t' /\ holds t' (shs ops s) (sems ops s P).
Proof.
  induction 1 as [ds s|o rest ds s ds' de Ed Ag Hf Hm Ag' _ IH].
  - exists []. split; [reflexivity|]. split; [reflexivity|]. intros t P H. exists t. split; [reflexivity|exact H].
  - destruct IH as (ls & Ea & Et & Hr). cbn [assemble]. rewrite Ed. cbn [bind]. rewrite Ea. cbn [bind].
    exists (mkLay o ds ds' :: ls). split; [reflexivity|]. split.
    + unfold top_shape in *. cbn [map l_out]. destruct ls as [|l ls]; [exact Et|]. cbn [map] in *.
      rewrite <- Et. change (last (l_out l :: map l_out ls) ds = last (l_out l :: map l_out ls) ds').
      clear. generalize (l_out l) as a. induction (map l_out ls) as [|b k IH]; intros a; [reflexivity|exact (IH b)].
    + intros t P Ht. cbn [run_all]. destruct (run_ok (mkLay o ds ds') t s P Ht (proj1 Ag) (proj2 Ag) Hf) as (t' & -> & Ht').
      cbn [bind]. cbn [l_op] in Ht'. exact (Hr t' _ Ht').
Qed.
Lemma fits_semsh o s out : fits o s out -> fits o s (semsh o s).
Proof. intros (A & B & H). split; [exact A|]. split; [exact B|]. destruct o; auto. destruct H as (H1 & H2 & H3 & _). auto. Qed.
Lemma goods_dinv D all ops ds s de P vs : goods ops ds s de -> dinv D all s P vs ->
  dinv D all (shs ops s) (fun x => sems ops s (P x)) (semvs ops s all vs).
Proof.
  intros H. revert P vs. induction H as [ds s|o rest ds s ds' de Ed Ag Hf Hm Ag' _ IH]; intros P vs Hd; [exact Hd|].
  cbn [shs sems semvs]. apply (IH (fun x => sem o s (P x)) (semvars o s all vs)).
  apply sem_dinv; [exact (fits_semsh _ _ _ Hf)|exact Hm|exact Hd].
Qed.

(** ** the Factorize layer *)
Lemma bidx_reps reps r : (r < reps)%nat -> bidx reps r = r.
Proof. intros H. unfold bidx. destruct (Nat.eqb_spec reps 1); [lia|reflexivity]. Qed.
Section Base.
Variables (m : module) (s : shape) (depth reps : nat) (d : draw) (fm : fact).
Hypothesis (Bm : built m) (Am : aligned m) (Es : ll_shape m = Ok s).
Let nf := length (query (scope_of m)).
Hypothesis (One : features (out_shape m) = nf).
Hypothesis (Hreps : repetitions s = reps \/ repetitions s = 1%nat) (HRpos : (0 < reps)%nat).
Hypothesis Hs : Permutation (d_sizes d) (base_sizes nf (2 ^ depth)).
Hypothesis Hp : forall r, Permutation (d_perms d r) (seq 0 nf).
Hypothesis Hm : mk_factorize nf nf (channels (out_shape m)) depth reps (d_sizes d) (d_perms d) = Ok fm.
Let C := channels (out_shape m).

Definition leaf_prob (x : row) (i c r : nat) : R := pr (loglik m x i c (bidx (repetitions s) r)).
Definition base (x : row) : nat -> nat -> nat -> R := group_prob nf (fc_mat fm) (leaf_prob x).
Definition base_shape : shape := mkShape (2 ^ depth) C reps.
Lemma sh_eq : features s = nf /\ channels s = C.
Proof. destruct (ll_shape_spec m s (built_wf m Bm) Es) as (E1 & E2 & _). unfold C. rewrite <- One. auto. Qed.
Lemma fact_shape_eq : fact_shape fm = base_shape.
Proof.
  unfold fact_shape, base_shape. destruct (m_fields nf C depth reps _ _ fm Hm) as (_ & _ & -> & -> & ->). reflexivity.
Qed.
Lemma rep_lt r : (r < reps)%nat -> (bidx (repetitions s) r < repetitions s)%nat.
Proof. intros Hr. unfold bidx. destruct (Nat.eqb_spec (repetitions s) 1) as [E|E]; lia. Qed.
Lemma bprod_exp n x : bprod n (fun i => exp (x i)) = exp (bsum n x).
Proof. induction n as [|n IH]; cbn [bprod bsum]; [now rewrite exp_0|]. now rewrite IH, exp_plus. Qed.

Lemma base_pos_shape : (0 < C)%nat /\ (0 < reps)%nat.
Proof. split; [|exact HRpos]. exact (wf_cpos m (wf_wf1 m (built_wf m Bm))). Qed.

(** finite leaf values: the factorised tensor holds the group products *)
Lemma fact_holds x : (forall f c r, in_shape s f c r -> loglik m x f c r <> NInf) ->
  exists t, bind (leaf_tensor m x) (fact_run fm) = Ok t /\ holds t base_shape (base x).
Proof.
  intros Hfin. unfold leaf_tensor. rewrite Es. cbn [bind]. unfold fact_run. cbn [t_sh].
  destruct sh_eq as [EF EC]. destruct (m_fields nf C depth reps _ _ fm Hm) as (Fn & Fi & Fc & Fo & Fr).
  assert (Eb : bcast (repetitions s) (fc_reps fm) = Ok reps).
  { unfold bcast. rewrite Fr. destruct Hreps as [-> | ->].
    - now rewrite Nat.eqb_refl.
    - destruct (Nat.eqb_spec 1 reps) as [<-|]; [reflexivity|]. reflexivity. }
  rewrite Eb. cbn [bind].
  set (xv := fun i c r => match loglik m x i c (bidx (repetitions s) r) with Fin v => v | NInf => 0 end).
  assert (K : forall f c r, (f < 2 ^ depth)%nat -> (c < C)%nat -> (r < reps)%nat ->
     fact_ll fm (fun i c0 r0 => loglik m x i c0 (bidx (repetitions s) r0)) f c (bidx (fc_reps fm) r)
      = Ok (Some (lfrom (base x f c r))) /\ 0 < base x f c r).
  { intros f c r Hf Hc Hr. rewrite Fr, (bidx_reps reps r Hr).
    assert (EX : forall i, (i < nf)%nat -> loglik m x i c (bidx (repetitions s) r) = Fin (xv i c r)).
    { intros i Hi. unfold xv. destruct (loglik m x i c (bidx (repetitions s) r)) eqn:E; [|reflexivity].
      exfalso. apply (Hfin i c (bidx (repetitions s) r)); [|exact E]. split; [lia|]. split; [lia|]. now apply rep_lt. }
    rewrite (ll_fin nf C depth reps _ _ fm Hm _ xv f c r EX).
    assert (EB : base x f c r = exp (lsumR (map (fun i => xv i c r) (filter (fun i => fc_mat fm r i f) (seq 0 nf))))).
    { unfold base, group_prob. rewrite lsumR_filter, lsumR_seq, <- bprod_exp. apply bprod_ext. intros i Hi.
      unfold leaf_prob. rewrite (EX i Hi). destruct (fc_mat fm r i f); cbn [pr]; [reflexivity|now rewrite exp_0]. }
    split; [|rewrite EB; apply exp_pos]. do 2 f_equal. rewrite EB. symmetry. rewrite lfrom_Fin by apply exp_pos. now rewrite ln_exp. }
  destruct base_pos_shape as [PC PR].
  assert (P2 : (0 < 2 ^ depth)%nat) by (pose proof (Nat.pow_nonzero 2 depth); lia).
  cbv zeta. cbn [t_ll]. rewrite (proj1 (K 0%nat 0%nat 0%nat P2 PC PR)).
  eexists. split; [reflexivity|]. split; [cbn [n_t t_sh]; rewrite Fo, Fc; reflexivity|].
  intros f c r (If & Ic & Ir). cbn [base_shape features channels repetitions] in If, Ic, Ir. cbn [n_t n_nan t_ll].
  destruct (K f c r If Ic Ir) as [-> Q]. auto.
Qed.

(** the group products are distributions over the variables of the groups *)
Definition group_vars (f r : nat) : list nat := flat_map (nthq m) (filter (fun i => fc_mat fm r i f) (seq 0 nf)).
Lemma group_vars_In f r v : In v (group_vars f r) <-> exists i, (i < nf)%nat /\ fc_mat fm r i f = true /\ In v (nthq m i).
Proof.
  unfold group_vars. rewrite in_flat_map. split.
  - intros (i & Hi & Hv). apply filter_In in Hi. destruct Hi as [Hi E]. apply in_seq in Hi. exists i. split; [lia|auto].
  - intros (i & Hi & E & Hv). exists i. split; [|exact Hv]. apply filter_In. split; [apply in_seq; lia|exact E].
Qed.
Lemma base_dinv D : leaves_norm D m -> dinv D (query (scope_of m)) base_shape base group_vars.
Proof.
  intros Hn. pose proof (wf_wf1 m (built_wf m Bm)) as W. destruct sh_eq as [EF EC].
  assert (NN : forall x f c r, 0 <= base x f c r).
  { intros x f c r. unfold base, group_prob. apply bprod_nonneg. intros i _. destruct (fc_mat fm r i f); [apply pr_nonneg|lra]. }
  constructor; cbn [base_shape features channels repetitions].
  - intros x f c r _. apply NN.
  - intros f c r (If & Ic & Ir). cbn [base_shape features channels repetitions] in If, Ic, Ir.
    apply is_dist_ext with (g := fun x => ladds nf (fun i => if fc_mat fm r i f then loglik m x i c (bidx (repetitions s) r) else Fin 0)).
    + intros x. apply pr_inj. rewrite pr_ladds, pr_lfrom by apply NN. unfold base, group_prob. apply bprod_ext. intros i _.
      destruct (fc_mat fm r i f); [reflexivity|apply pr_Fin0].
    + apply (dist_prod D nf (fun i => if fc_mat fm r i f then nthq m i else [])
               (fun i x => if fc_mat fm r i f then loglik m x i c (bidx (repetitions s) r) else Fin 0)).
      * intros i Hi. destruct (fc_mat fm r i f).
        -- apply (circuit_is_dist D m s); auto. split; [lia|]. split; [lia|now apply rep_lt].
        -- constructor; [reflexivity|intros v x []|reflexivity].
      * intros i j v Hi Hj Hij. destruct (fc_mat fm r i f), (fc_mat fm r j f); cbn; try tauto.
        intros A B. exact (wf_disj m W i j ltac:(lia) ltac:(lia) Hij v A B).
      * intros v. rewrite group_vars_In. split.
        -- intros (i & Hi & E & Hv). exists i. rewrite E. auto.
        -- intros (i & Hi & Hv). exists i. destruct (fc_mat fm r i f); [auto|contradiction].
  - intros f g r v Hf Hg Hr Hfg. rewrite !group_vars_In. intros (i & Hi & Ei & Hvi) (j & Hj & Ej & Hvj).
    destruct (Nat.eq_dec i j) as [<-|N].
    + apply Hfg. exact (owner_unique _ _ _ _ _ _ _ _ Hs Hp Hm r i f g Ei Ej).
    + exact (wf_disj m W i j ltac:(lia) ltac:(lia) N v Hvi Hvj).
  - intros r v Hr. rewrite (wf_union m W). split.
    + intros (i & Hi & Hv). destruct (owner_exists _ _ _ _ _ _ _ _ Hs Hp Hm r i ltac:(lia)) as (o & Ho & E).
      exists o. split; [exact Ho|]. apply group_vars_In. exists i. split; [lia|auto].
    + intros (f & Hf & Hv). apply group_vars_In in Hv. destruct Hv as (i & Hi & _ & Hv). exists i. split; [lia|exact Hv].
Qed.
End Base.
