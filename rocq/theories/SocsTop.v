(** Lemmas behind P_Socs.v. *)
From Coq Require Import List Arith ZArith Bool Reals Lia Lra Sorted.
From Verif Require Import Base ScopeModel ScopeProofs CircuitModel CircuitBasics CircuitEval CircuitSpec CircuitMarg CircuitProps Integral
  LeafModel LeafSpec LeafProofs LeafTop SampleModel SampleSpec SampleExp SignedModel SignedSpec SignedProofs LipProofs IpProofs SocsProofs MhProofs.
Import ListNotations.
Local Open Scope R_scope.

(** ** iterated sums *)
Lemma sums_over_plus D vs g h : forall x u w, sums_over D vs g x u -> sums_over D vs h x w -> sums_over D vs (fun y => g y + h y) x (u + w).
Proof.
  induction vs as [|v vs IH]; intros x u w; cbn [sums_over]; [intros -> ->; reflexivity|].
  intros (k1 & A1 & B1) (k2 & A2 & B2). exists (fun a => k1 a + k2 a). split; [intros a; now apply IH|now apply sums_plus].
Qed.
Lemma sums_over_scal D vs k g : forall x u, sums_over D vs g x u -> sums_over D vs (fun y => k * g y) x (k * u).
Proof.
  induction vs as [|v vs IH]; intros x u; cbn [sums_over]; [intros ->; reflexivity|].
  intros (h & A & B). exists (fun a => k * h a). split; [intros a; now apply IH|now apply sums_scal].
Qed.
Lemma sums_over_lsum {A} D vs (g : A -> row -> R) (u : A -> R) (l : list A) x : l <> [] ->
  (forall a, In a l -> sums_over D vs (g a) x (u a)) ->
  sums_over D vs (fun y => lsumR (map (fun a => g a y) l)) x (lsumR (map u l)).
Proof.
  induction l as [|a l IH]; [congruence|]. intros _ H. destruct l as [|b l].
  - cbn. apply (sums_over_ext D vs (g a)); [intros; ring|]. replace (u a + 0) with (u a) by ring. apply H. now left.
  - cbn [map lsumR] in *. apply sums_over_plus; [apply H; now left|]. apply IH; [congruence|]. intros; apply H; now right.
Qed.

Lemma lsumR_flat {A B} (g : B -> R) (h : A -> list B) (l : list A) :
  lsumR (map g (flat_map h l)) = lsumR (map (fun a => lsumR (map g (h a))) l).
Proof. induction l as [|a l IH]; [reflexivity|]. cbn. now rewrite map_app, lsumR_app, IH. Qed.

Lemma sums_over_assignments D dom vs g : (forall v, In v vs -> D v = DFin (dom v)) -> forall x u,
  sums_over D vs g x u -> lsumR (map g (assignments dom vs x)) = u.
Proof.
  intros HD. induction vs as [|v vs IH]; intros x u; cbn [sums_over assignments].
  - intros <-. cbn. ring.
  - intros (h & A & B). rewrite HD in B by now left. cbn in B. rewrite lsumR_flat, <- B. f_equal. apply map_ext. intros a.
    apply IH; [intros; apply HD; now right|apply A].
Qed.

Lemma assignments_In dom vs : forall x y, In y (assignments dom vs x) ->
  (forall v, In v vs -> exists a, In a (dom v) /\ y v = Some a) /\ (forall v, ~ In v vs -> y v = x v).
Proof.
  induction vs as [|v vs IH]; intros x y; cbn [assignments].
  - intros [<-|[]]. split; [intros v []|auto].
  - rewrite in_flat_map. intros (a & Ha & Hy). apply IH in Hy. destruct Hy as [H1 H2]. split.
    + intros w [<-|Hw]; [|now apply H1]. destruct (in_dec Nat.eq_dec v vs) as [I|I]; [now apply H1|].
      exists a. split; [assumption|]. rewrite H2 by assumption. apply upd_same.
    + intros w Hw. rewrite H2 by (intros I; apply Hw; now right). apply upd_other. intros ->. apply Hw. now left.
Qed.

Lemma lsum_bsum {A} (g : A -> R) (l : list A) d : lsumR (map g l) = bsum (length l) (fun i => g (nth i l d)).
Proof.
  induction l as [|a l IH]; [reflexivity|]. cbn [length map lsumR]. rewrite bsum_S_first, IH. reflexivity.
Qed.

(** ** C44: the partition function of one component and of the sum *)
Lemma self_ip Rr D m k f c r vars x : component Rr D m -> inner_product_matrix m m = Ok k -> pos_ok Rr m f c r ->
  NoDup vars -> (forall v, In v vars <-> In v (vars_of m f)) ->
  sums_over D vars (fun y => fun_of m y f c r ^ 2) x (k f c c r).
Proof.
  intros [C1 C2 C3 C4 C5 C6 C7] E P ND HV.
  apply (sums_over_ext D vars (fun y => fun_of m y f c r * fun_of m y f c r)); [intros; cbn; ring|].
  apply (ip_integral Rr D m m k vars); auto.
Qed.

Lemma partition_integral Rr D cs Z f c r vars x : cs <> [] -> Forall (component Rr D) cs -> partition cs = Ok Z ->
  Forall (fun m => pos_ok Rr m f c r) cs -> NoDup vars -> Forall (fun m => forall v, In v vars <-> In v (vars_of m f)) cs ->
  sums_over D vars (fun y => squares cs y f c r) x (Z f c r).
Proof.
  intros Hne HC E HP ND HV. unfold partition in E. destruct (mapR (fun c => inner_product_matrix c c) cs) as [ks|] eqn:Ek; [|discriminate].
  cbn in E. injection E as <-. apply mapR_ok in Ek. rewrite Forall_forall in HC, HP, HV.
  assert (lsumR (map (fun k : T4 => k f c c r) ks)
          = lsumR (map (fun m => match inner_product_matrix m m with Ok k => k f c c r | Err => 0 end) cs)) as ->.
  { clear - Ek. induction Ek as [|m k cs ks H F IH]; [reflexivity|]. cbn. now rewrite IH, H. }
  unfold squares. apply sums_over_lsum; [assumption|]. intros m Hm.
  destruct (Forall2_In_l _ _ _ _ Ek Hm) as (k & _ & Hk). rewrite Hk. apply (self_ip Rr); auto.
Qed.

Lemma complete_cols m x : complete m x ->
  Forall (fun l => match l with SFam _ => True | SSC sc _ _ _ _ => forall v, In v (query sc) -> exists k, x v = Some (INR k) end) (sleaves m).
Proof. now intros [_ H]. Qed.

Lemma pr_double a : pr (ldouble a) = pr a ^ 2.
Proof. destruct a as [|x]; cbn; [ring|]. replace (2 * x) with (x + x) by ring. rewrite exp_plus. ring. Qed.
Lemma pr_lsub_R a z : pr (lsub_R a z) = pr a / exp z.
Proof. destruct a as [|x]; cbn; [unfold Rdiv; ring|]. unfold Rminus. rewrite exp_plus, exp_Ropp. reflexivity. Qed.

Lemma socs_value Rr cs x t Z f c r : 
  Forall (fun m => constructed Rr m /\ uniform_support m /\ exact_weights m /\ strong_root m /\ complete m x /\ pos_ok Rr m f c r) cs ->
  partition cs = Ok Z -> socs_ll cs x = Ok t -> pr (t f c r) = squares cs x f c r / Rmax (Z f c r) tiny.
Proof.
  intros H EZ E. unfold socs_ll in E. destruct (mapR (seval x) cs) as [ts|] eqn:Et; [|discriminate]. cbn [bind] in E.
  rewrite EZ in E. cbn [bind] in E. injection E as <-. rewrite pr_lsub_R.
  rewrite exp_ln by (pose proof tiny_pos; pose proof (Rmax_r (Z f c r) tiny); lra). f_equal.
  rewrite pr_lse. apply mapR_ok in Et.
  rewrite <- (lsum_bsum (fun t : T3 (lval * BinNums.Z) => pr (ldouble (fst (t f c r)))) ts (fun _ _ _ => (NInf, 0%Z))).
  unfold squares. clear EZ. induction Et as [|m t cs ts H1 F IH]; [reflexivity|]. cbn [map lsumR]. inversion H as [|? ? (B & S & W & SR & C & P) H2]; subst.
  rewrite IH by assumption. f_equal. rewrite pr_double. destruct B as [B U].
  rewrite (seval_abs Rr x m (built_wf _ B) U S W SR (complete_cols _ _ C) t H1 f c r P). apply pow2_abs.
Qed.

Lemma socs_mass Rr D cs Z f c r vars x : cs <> [] -> Forall (component Rr D) cs -> partition cs = Ok Z ->
  Forall (fun m => pos_ok Rr m f c r) cs -> NoDup vars -> Forall (fun m => forall v, In v vars <-> In v (vars_of m f)) cs ->
  tiny <= Z f c r ->
  sums_over D vars (fun y => squares cs y f c r / Rmax (Z f c r) tiny) x 1.
Proof.
  intros Hne HC E HP ND HV HZ. rewrite Rmax_left by assumption. pose proof tiny_pos.
  replace 1 with (/ Z f c r * Z f c r) by (field; lra).
  apply (sums_over_ext D vars (fun y => / Z f c r * squares cs y f c r)); [intros; unfold Rdiv; ring|].
  apply sums_over_scal. now apply (partition_integral Rr).
Qed.

(** ** acceptance *)
Lemma mll_ok x m : monotone m -> uniform_support m -> wf (skel m) -> in_support m x -> exists t, mll x m = Ok t.
Proof.
  unfold uniform_support, in_support.
  induction m as [l|ch co rr lg IH|ch co rr w IH|d2 sc cs IH|ch IH] using smod_ind'; intros M US W S.
  - destruct l as [l|]; [|destruct M]. cbn. unfold fleaf_ll. apply Forall_inv in US, S.
    assert (validates l x = true) as ->; [|eauto]. apply validates_true. intros f c r En. rewrite (vsupp_common l f c r _ US En).
    destruct En as (Hf & Hc & Hr). destruct (S f c r Hf Hc Hr) as (a & Ea & Sa). unfold imputed. now rewrite Ea.
  - cbn in M, W. destruct W as [W _]. cbn [mll]. destruct (IH M US W S) as [t ->]. cbn. eauto.
  - destruct M.
  - apply pure_cat in M. apply Forall_leaves_cat in US, S. pose proof (wf_scat _ _ _ W) as Wc. cbn [mll].
    rewrite Forall_forall in IH, M, US, S, Wc.
    destruct (mapR_all (mll x) cs) as [bs ->]; [|cbn; eauto]. intros m Hm. apply IH; auto.
  - cbn in M, W. cbn [mll]. destruct (IH M US W S) as [t ->]. cbn. eauto.
Qed.

Lemma sums_monotone_cat d2 sc cs : sums_monotone (SCat d2 sc cs) <-> Forall sums_monotone cs.
Proof. cbn. apply sgo_Forall. Qed.

Lemma seval_ok x m : sums_monotone m -> uniform_support m -> wf (skel m) -> in_support m x -> exists t, seval x m = Ok t.
Proof.
  unfold uniform_support, in_support.
  induction m as [l|ch co rr lg IH|ch co rr w IH|d2 sc cs IH|ch IH] using smod_ind'; intros M US W S.
  - destruct l as [l|sc nc nr K w].
    + destruct (mll_ok x (SLeaf (SFam l)) I US W S) as [t Et]. cbn in Et |- *. rewrite Et. cbn. eauto.
    + cbn [seval]. unfold scat_eval. apply Forall_inv in S.
      match goal with |- context [if ?b then _ else _] => assert (b = true) as -> end; [|eauto].
      apply forallb_forall. intros v Hv. destruct (S v Hv) as (k & Hk & ->). rewrite trunc_INR.
      apply andb_true_iff. split; [apply Z.leb_le; lia|apply Z.ltb_lt; lia].
  - destruct (mll_ok x (SSum ch co rr lg) M US W S) as [t Et]. cbn [seval]. rewrite Et. cbn. eauto.
  - cbn in M, W. destruct W as [W _]. cbn [seval]. destruct (IH M US W S) as [t ->]. cbn. eauto.
  - apply sums_monotone_cat in M. apply Forall_leaves_cat in US, S. pose proof (wf_scat _ _ _ W) as Wc. cbn [seval].
    rewrite Forall_forall in IH, M, US, S, Wc.
    destruct (mapR_all (seval x) cs) as [bs ->]; [|cbn; eauto]. intros m Hm. apply IH; auto.
  - cbn in M, W. cbn [seval]. destruct (IH M US W S) as [t ->]. cbn. eauto.
Qed.

Lemma socs_accepts cs x Z : Forall (fun m => built (skel m) /\ sums_monotone m /\ uniform_support m /\ in_support m x) cs ->
  partition cs = Ok Z -> exists t, socs_ll cs x = Ok t.
Proof.
  intros H E. unfold socs_ll. destruct (mapR_all (seval x) cs) as [bs ->].
  - intros m Hm. rewrite Forall_forall in H. destruct (H m Hm) as (B & M & US & S). apply seval_ok; auto. now apply built_wf.
  - cbn [bind]. rewrite E. cbn. eauto.
Qed.
