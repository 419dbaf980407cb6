(** Lemmas behind P_Exp.v. *)
From Coq Require Import List Arith ZArith Bool Reals Lia Lra Sorted.
From Verif Require Import Base ScopeModel ScopeProofs CircuitModel CircuitBasics CircuitEval CircuitSpec CircuitMarg CircuitProps Integral
  LeafModel LeafSpec LeafProofs LeafTop SampleModel SampleSpec SampleExp SignedModel SignedSpec SignedProofs LipProofs IpProofs SocsProofs MhProofs SocsTop
  TripleModel TripleSpec LtpProofs TpProofs.
Import ListNotations.
Local Open Scope R_scope.

Lemma scalar_pos m : built (skel m) -> scalar_shape m = true -> pos_ok 1 m 0 0 0.
Proof.
  intros _ H. unfold scalar_shape, shape_eqb in H. apply andb_true_iff in H. destruct H as [H H3]. apply andb_true_iff in H. destruct H as [H1 H2].
  apply Nat.eqb_eq in H1, H2. constructor; [unfold sfeat|unfold schan|]; cbn in *; lia.
Qed.

Lemma expsq_sum e x : expsq e x = lsumR (map (fun m => fun_of m x 0%nat 0%nat 0%nat * fun_of m x 0%nat 0%nat 0%nat * fun_of (x_mono e) x 0%nat 0%nat 0%nat) (x_comps e)).
Proof.
  unfold expsq, squares. induction (x_comps e) as [|m cs IH]; cbn [map lsumR]; [ring|]. rewrite <- IH. ring.
Qed.

Lemma exp_integral D e Z vars x : x_comps e <> [] -> expcomp D e -> exp_Z e = Ok Z ->
  NoDup vars -> (forall v, In v vars <-> In v (query (scope_of (skel (x_mono e))))) ->
  (forall m, In m (x_comps e) -> forall v, In v vars <-> In v (vars_of m 0)) ->
  sums_over D vars (expsq e) x Z.
Proof.
  intros Hne HC E ND _ HV. unfold exp_Z in E. destruct (mapR _ (x_comps e)) as [zs|] eqn:Ez; [|discriminate]. cbn [bind] in E. injection E as <-.
  apply mapR_ok in Ez.
  apply (sums_over_ext D vars (fun y => lsumR (map (fun m => fun_of m y 0%nat 0%nat 0%nat * fun_of m y 0%nat 0%nat 0%nat * fun_of (x_mono e) y 0%nat 0%nat 0%nat) (x_comps e)))).
  { intros. symmetry. apply expsq_sum. }
  assert (zs = map (fun m => match triple_product_scalar m m (x_mono e) with Ok z => z | Err => 0 end) (x_comps e)) as ->.
  { clear - Ez. induction Ez as [|m z cs zs H F IH]; [reflexivity|]. cbn [map]. now rewrite H, IH. }
  apply (sums_over_lsum D vars (fun m y => fun_of m y 0%nat 0%nat 0%nat * fun_of m y 0%nat 0%nat 0%nat * fun_of (x_mono e) y 0%nat 0%nat 0%nat)); [assumption|].
  intros m Hm. destruct HC as [HM HCs HX]. rewrite Forall_forall in HCs. pose proof (HCs m Hm) as Cm.
  destruct (Forall2_In_l _ _ _ _ Ez Hm) as (z & _ & Hz). cbn beta in Hz. rewrite Hz. unfold triple_product_scalar in Hz.
  destruct (scalar_shape m) eqn:S1; [|discriminate]. destruct (scalar_shape (x_mono e)) eqn:S2; [|discriminate]. cbn [andb] in Hz.
  destruct (triple_product_tensor m m (x_mono e)) as [k|] eqn:Ek; [|discriminate]. cbn [bind] in Hz. injection Hz as <-.
  destruct Cm as [C1 C2 C3 _ _ _ _], HM as [M1 M2 M3 _ _ _ _].
  apply (tp_integral 1 D m m (x_mono e) k vars); auto; try (apply scalar_pos; [apply C1|assumption]).
  - intros la lb le A B C Q1 Q2. exact (HX m la lb le Hm A B C Q1 Q2).
  - apply scalar_pos; [apply M1|assumption].
  - exact (HV m Hm).
Qed.

Lemma exp_value D e x v Z : expcomp D e -> scalar_shape (x_mono e) = true -> Forall (fun m => scalar_shape m = true) (x_comps e) ->
  Forall (fun m => complete m x) (x_comps e) ->
  exp_Z e = Ok Z -> exp_ll e x = Ok v -> pr v = expsq e x / Rmax (Rmax Z 0) tiny.
Proof.
  intros [HM HC HX] SM SC HX' EZ E. unfold exp_ll in E. destruct (mll x (x_mono e)) as [tm|] eqn:Em; [|discriminate]. cbn [bind] in E.
  destruct (mapR (seval x) (x_comps e)) as [ts|] eqn:Et; [|discriminate]. cbn [bind] in E. rewrite EZ in E. cbn [bind] in E. injection E as <-.
  rewrite pr_lsub_R, exp_ln by (pose proof tiny_pos; pose proof (Rmax_r (Rmax Z 0) tiny); lra). f_equal. rewrite pr_ladd.
  unfold expsq. destruct HM as [[MB MU] _ _ _ MS _ _]. f_equal.
  { apply (mll_val 1 x (x_mono e) (built_wf _ MB) MU MS tm Em). now apply scalar_pos. }
  rewrite pr_lse. apply mapR_ok in Et.
  rewrite <- (lsum_bsum (fun t : T3 (lval * BinNums.Z) => pr (ldouble (fst (t 0%nat 0%nat 0%nat)))) ts (fun _ _ _ => (NInf, 0%Z))).
  unfold squares. clear EZ HX. revert HC SC HX'. induction Et as [|m t cs ts H1 F IH]; intros HC SC HX'; [reflexivity|]. cbn [map lsumR].
  inversion HC as [|? ? C1 C2]; inversion SC as [|? ? S1 S2]; inversion HX' as [|? ? X1 X2]; subst.
  rewrite IH by assumption. f_equal. rewrite pr_double. destruct C1 as [[B U] _ _ _ S W SR].
  rewrite (seval_abs 1 x m (built_wf _ B) U S W SR (complete_cols _ _ X1) t H1 _ _ _ (scalar_pos m B S1)). apply pow2_abs.
Qed.

Lemma mk_expsocs_iff mono cs e : mk_expsocs mono cs = Ok e <->
  e = mkExp mono cs /\ cs <> [] /\ out_shape (skel mono) = mkShape 1 1 1 /\
  (forall c, In c cs -> out_shape (skel c) = mkShape 1 1 1 /\ scope_eqb (scope_of (skel c)) (scope_of (skel mono)) = true).
Proof.
  assert (SH : forall m, scalar_shape m = true <-> out_shape (skel m) = mkShape 1 1 1).
  { intros m. unfold scalar_shape, shape_eqb. rewrite !andb_true_iff, !Nat.eqb_eq. destruct (out_shape (skel m)) as [a b c]. cbn. split; [intros [[-> ->] ->]; reflexivity|intros [= -> -> ->]; auto]. }
  unfold mk_expsocs. destruct cs as [|c cs]; [split; [discriminate|intros (_ & N & _); now destruct N]|].
  destruct (scalar_shape mono) eqn:S; cbn [negb].
  - apply SH in S. destruct (forallb _ (c :: cs)) eqn:F.
    + rewrite forallb_forall in F. split; [intros [= <-]|intros (-> & _); reflexivity]. split; [reflexivity|]. split; [discriminate|]. split; [exact S|].
      intros d Hd. specialize (F d Hd). apply andb_true_iff in F. rewrite SH in F. exact F.
    + split; [discriminate|]. intros (_ & _ & _ & H). exfalso. rewrite <- not_true_iff_false in F. apply F. apply forallb_forall.
      intros d Hd. apply andb_true_iff. rewrite SH. now apply H.
  - split; [discriminate|]. intros (_ & _ & H & _). apply SH in H. congruence.
Qed.
Lemma scalar_iff m : scalar_shape m = true <-> out_shape (skel m) = mkShape 1 1 1.
Proof.
  unfold scalar_shape, shape_eqb. rewrite !andb_true_iff, !Nat.eqb_eq. destruct (out_shape (skel m)) as [a b c]. cbn. split; [intros [[-> ->] ->]; reflexivity|intros [= -> -> ->]; auto].
Qed.

Lemma exp_accepts e x Z : monotone (x_mono e) -> uniform_support (x_mono e) -> built (skel (x_mono e)) -> in_support (x_mono e) x ->
  Forall (fun m => built (skel m) /\ sums_monotone m /\ uniform_support m /\ in_support m x) (x_comps e) ->
  exp_Z e = Ok Z -> exists v, exp_ll e x = Ok v.
Proof.
  intros M US B S H E. unfold exp_ll. destruct (mll_ok x (x_mono e) M US (built_wf _ B) S) as [t ->]. cbn [bind].
  destruct (mapR_all (seval x) (x_comps e)) as [bs ->].
  - intros m Hm. rewrite Forall_forall in H. destruct (H m Hm) as (B' & M' & US' & S'). apply seval_ok; auto. now apply built_wf.
  - cbn [bind]. rewrite E. cbn. eauto.
Qed.

Lemma scalar_vars m : built (skel m) -> out_shape (skel m) = mkShape 1 1 1 -> forall v, In v (vars_of m 0) <-> In v (query (scope_of (skel m))).
Proof.
  intros B E v. pose proof (wf_wf1 _ (built_wf _ B)) as W. rewrite (wf_union _ W v), E. cbn [features]. unfold vars_of, nthq. split.
  - intros H. exists 0%nat. split; [lia|exact H].
  - intros (f & Hf & H). replace f with 0%nat in H by lia. exact H.
Qed.

(** uniform circuits whose constants underflow *)
Definition half (f c k : nat) : R := 1 / 2.
