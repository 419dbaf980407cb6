(** C253-C259: triple products and ExpSOCS. *)
From Coq Require Import List Arith ZArith Bool Reals Lia Lra Sorted.
From Verif Require Import Base ScopeModel ScopeProofs CircuitModel CircuitBasics CircuitEval CircuitSpec CircuitMarg CircuitProps Integral MargModel MargProofs
  LeafModel LeafSpec LeafProofs LeafTop SampleModel SampleSpec SignedModel SignedSpec SignedProofs LipProofs IpProofs SocsProofs SocsTop SocsExamples
  TripleModel TripleSpec LtpProofs TpProofs ExpTop.
Import ListNotations.
Local Open Scope R_scope.

(** C253: whatever triple_product_tensor returns is the sum (discrete variables) or
    integral (real variables) over all complete assignments of the product of the three
    circuits' values, for every triple of output channels. *)
Theorem C253_triple_product : forall Rr D a b c k vars, constructed Rr a -> constructed Rr b -> constructed Rr c ->
  sorted_leaves a -> sorted_leaves b -> sorted_leaves c ->
  Forall (sleaf_fits D) (sleaves a) -> Forall (sleaf_fits D) (sleaves b) -> Forall (sleaf_fits D) (sleaves c) ->
  (forall la lb lc, In la (sleaves a) -> In lb (sleaves b) -> In lc (sleaves c) ->
     query (sl_scope la) = query (sl_scope lb) -> query (sl_scope la) = query (sl_scope lc) -> exact_leaves3 la lb lc) ->
  triple_product_tensor a b c = Ok k ->
  forall f ca cb cc r, pos_ok Rr a f ca r -> pos_ok Rr b f cb r -> pos_ok Rr c f cc r ->
  NoDup vars -> (forall v, In v vars <-> In v (vars_of a f)) ->
  forall x, sums_over D vars (fun y => fun_of a y f ca r * fun_of b y f cb r * fun_of c y f cc r) x (k f ca cb cc r).
Proof. exact tp_integral. Qed.
Print Assumptions C253_triple_product.

(** C254: the constructor accepts exactly: at least one component, everything of output
    shape (1,1,1), every component over the monotone circuit's scope *)
Theorem C254_constructor : forall mono cs e, mk_expsocs mono cs = Ok e <->
  e = mkExp mono cs /\ cs <> [] /\ out_shape (skel mono) = mkShape 1 1 1 /\
  (forall c, In c cs -> out_shape (skel c) = mkShape 1 1 1 /\
     (forall v, In v (query (scope_of (skel c))) <-> In v (query (scope_of (skel mono)))) /\
     (forall v, In v (evidence (scope_of (skel c))) <-> In v (evidence (scope_of (skel mono))))).
Proof.
  intros mono cs e. rewrite mk_expsocs_iff. split; intros (A & B & C & H); repeat (split; [assumption|]); intros c Hc; destruct (H c Hc) as [H1 H2];
    (split; [exact H1|]); now apply scope_eqb_spec.
Qed.
Print Assumptions C254_constructor.

(** C255: at a complete row, ExpSOCS.log_likelihood is the log of
    m(x) * sum_i c_i(x)^2 / Z where Z is the sum or integral of m * sum_i c_i^2 over all
    complete assignments, provided Z is at least 1e-30; the total mass is one. *)
Theorem C255_density : forall D mono cs e Z vars, mk_expsocs mono cs = Ok e -> expcomp D e -> exp_Z e = Ok Z ->
  NoDup vars -> (forall v, In v vars <-> In v (query (scope_of (skel mono)))) ->
  (forall x, sums_over D vars (fun y => fun_of mono y 0%nat 0%nat 0%nat * squares cs y 0%nat 0%nat 0%nat) x Z) /\
  (tiny <= Z ->
   (forall x v, Forall (fun m => complete m x) cs -> exp_ll e x = Ok v ->
      pr v = fun_of mono x 0%nat 0%nat 0%nat * squares cs x 0%nat 0%nat 0%nat / Z) /\
   (forall x, sums_over D vars (fun y => fun_of mono y 0%nat 0%nat 0%nat * squares cs y 0%nat 0%nat 0%nat / Z) x 1)).
Proof.
  intros D mono cs e Z vars EK HC EZ ND HV. apply mk_expsocs_iff in EK. destruct EK as (-> & Hne & SM & SC).
  assert (forall x, sums_over D vars (expsq (mkExp mono cs)) x Z) as HI.
  { intros x. apply (exp_integral D (mkExp mono cs) Z vars x); auto. intros m Hm v. cbn [x_comps] in Hm. destruct (SC m Hm) as [S1 S2].
    rewrite scalar_vars; [|destruct HC as [_ HC _]; rewrite Forall_forall in HC; apply (cm_built _ _ _ (HC m Hm))|assumption].
    rewrite HV. apply scope_eqb_spec in S2. symmetry. apply S2. }
  split; [exact HI|]. intros HZ. pose proof tiny_pos as T. split.
  - intros x v Hx E. rewrite (exp_value D (mkExp mono cs) x v Z HC); auto.
    + rewrite (Rmax_left Z 0), Rmax_left by lra. reflexivity.
    + now apply scalar_iff.
    + apply Forall_forall. intros m Hm. now apply scalar_iff, SC.
  - intros x. replace 1 with (/ Z * Z) by (field; lra).
    apply (sums_over_ext D vars (fun y => / Z * expsq (mkExp mono cs) y)); [intros; unfold expsq, Rdiv; cbn [x_mono x_comps]; ring|].
    apply sums_over_scal, HI.
Qed.
Print Assumptions C255_density.

(** ... and it does not raise on rows inside the leaves' supports, if the monotone
    circuit is monotone. *)
Theorem C255_accepts : forall e x Z, monotone (x_mono e) -> uniform_support (x_mono e) -> built (skel (x_mono e)) -> in_support (x_mono e) x ->
  Forall (fun m => built (skel m) /\ sums_monotone m /\ uniform_support m /\ in_support m x) (x_comps e) ->
  exp_Z e = Ok Z -> exists v, exp_ll e x = Ok v.
Proof. exact exp_accepts. Qed.
Print Assumptions C255_accepts.

(** examples: a uniform monotone circuit with a signed and an unsigned component *)
Definition unifM : smod := SSum (SProduct (cat2 [0; 1]%nat 2 half2)) 1 1 (fun _ _ _ _ => 0).
Lemma unifM_ok : component 1 two unifM.
Proof.
  constructor.
  - split; [cbn; apply b_sum; cbn; try lia; apply b_leaf2; reflexivity|cbn; auto].
  - repeat constructor.
  - constructor; [|constructor]. cbn. intros. split; [reflexivity|left; reflexivity].
  - intros la lb [<-|[]] [<-|[]] _. cbn. intros. exact I.
  - constructor; [|constructor]. intros f c r _ a. reflexivity.
  - split; [exact I|]. constructor; [exact I|constructor].
  - cbn. constructor; [exact I|constructor].
Qed.
Definition exE : expsocs := mkExp unifM [compS; compM].
Lemma exE_ok : expcomp two exE.
Proof.
  constructor; [exact unifM_ok|constructor; [exact compS_ok|constructor; [exact compM_ok|constructor]]|].
  intros m la lb lc [<-|[<-|[]]] [<-|[]] [<-|[]] [<-|[]] _ _; cbn; auto.
Qed.
Lemma exE_Z : exists Z, exp_Z exE = Ok Z /\ Z = 873 / 1024.
Proof.
  eexists. split; [reflexivity|]. cbn -[softmax wsg pm half2]. rewrite !unif2, !half2_soft, !pm_soft by lia. unfold wsg, pm. field.
Qed.
Example C255_nonvacuous : mk_expsocs unifM [compS; compM] = Ok exE /\ expcomp two exE /\ (exists Z, exp_Z exE = Ok Z /\ Z = 873 / 1024) /\
  (forall y, In y xs2 -> exists v, exp_ll exE y = Ok v).
Proof.
  split; [reflexivity|]. split; [exact exE_ok|]. split; [exact exE_Z|]. intros y Hy. destruct exE_Z as (Z & EZ & _).
  pose proof unifM_ok as [[B _] _ _ _ US _ _].
  apply (exp_accepts exE y Z); auto; [exact I|apply (xs2_supp_cat y 2 half2 Hy)|exact (exC_accepts y Hy)].
Qed.
Example C253_nonvacuous : exists k, triple_product_tensor compS compS unifM = Ok k /\ k 0%nat 0%nat 0%nat 0%nat 0%nat = 25 / 32 /\
  constructed 1 compS /\ constructed 1 unifM /\ pos_ok 1 compS 0 0 0 /\ (forall v, In v [0; 1]%nat <-> In v (vars_of compS 0)).
Proof.
  eexists. split; [reflexivity|]. split.
  - cbn -[softmax wsg half2]. rewrite !unif2, !half2_soft by lia. unfold wsg. field.
  - split; [apply compS_ok|]. split; [apply unifM_ok|]. split; [constructor; cbn; lia|]. intros v; split; intros H; exact H.
Qed.

(** C256: with missing cells ExpSOCS.log_likelihood is not the marginal: the row with
    nothing observed has "density" 4. *)
Theorem C256_missing_refuted : exists mono cs e v,
  mk_expsocs mono cs = Ok e /\ expcomp two e /\ exp_ll e (fun _ => None) = Ok v /\ pr v = 4.
Proof.
  assert (component 1 two (cat2 [0]%nat 1 half2)) as C.
  { constructor.
    - split; [cbn; apply b_leaf; reflexivity|reflexivity].
    - repeat constructor.
    - constructor; [|constructor]. cbn. intros. split; [reflexivity|left; reflexivity].
    - intros la lb [<-|[]] [<-|[]] _. cbn. intros. exact I.
    - constructor; [|constructor]. intros f c r _ a. reflexivity.
    - split; [exact I|]. constructor; [exact I|constructor].
    - cbn. constructor; [exact I|constructor]. }
  set (m := cat2 [0]%nat 1 half2). set (e := mkExp m [m]).
  assert (exists Z, exp_Z e = Ok Z /\ Z = 1 / 4) as (Z & EZ & VZ).
  { eexists. split; [reflexivity|]. cbn -[softmax half2]. rewrite !half2_soft by lia. lra. }
  assert (validates (mk_fleaf (mkScope [0]%nat []) 1 1 (fun f c _ => FCategorical 2 (fun k => ln (half2 f c k)))) blank = true) as V.
  { apply validates_true. intros f c r (Hf & Hc & Hr). cbn in Hf, Hc, Hr. rewrite vsupp_common; [|intros ? ? ? _ ?; reflexivity|unfold entries; cbn; auto].
    unfold imputed. cbn. now rewrite asnat_1. }
  assert (exists v, exp_ll e blank = Ok v /\ pr v = 4) as (v & E & Hv).
  { unfold exp_ll. rewrite EZ. unfold e, m, cat2. cbn [x_mono x_comps mapR mll seval]. unfold fleaf_ll. rewrite V. cbn [bind]. eexists. split; [reflexivity|].
    rewrite pr_lsub_R, pr_ladd, pr_lse. cbn. rewrite VZ. assert (tiny <= / 10) as T' by (unfold tiny; replace 10 with (10 ^ 1) at 2 by ring; apply Rinv_le_contravar; [lra|apply Rle_pow; [lra|lia]]).
    rewrite (Rmax_left (1 / 4) 0), Rmax_left by lra. rewrite exp_ln by lra.
    repeat match goal with |- context [exp ?e] => replace e with 0 by ring; rewrite exp_0 end. field. }
  exists m, [m], e, v. split; [reflexivity|]. split; [|split; [exact E|exact Hv]].
  constructor; [exact C|constructor; [exact C|constructor]|]. intros m' la lb lc [<-|[]] [<-|[]] [<-|[]] [<-|[]] _ _. cbn. auto.
Qed.
Print Assumptions C256_missing_refuted.

(** C257: marginalize returns the ExpSOCS of the marginalised circuits, not the marginal
    of the density. *)
Definition margU : smod :=
  SSum (SLeaf (SFam (mk_fleaf (mkScope [0]%nat []) 2 1 (fun f c _ => FCategorical 2 (fun k => ln (half2 (nth f [0]%nat 0%nat) c k))))))
    1 1 (fun f i o r => ln (softmax 2 (fun _ => 0) i)).
Lemma margU_ok : component 1 two margU.
Proof.
  constructor.
  - split; [cbn; apply b_sum; cbn; try lia; apply b_leaf; reflexivity|cbn; auto].
  - repeat constructor.
  - constructor; [|constructor]. cbn. intros. split; [reflexivity|left; reflexivity].
  - intros la lb [<-|[]] [<-|[]] _. cbn. intros. exact I.
  - constructor; [|constructor]. intros f c r _ a. reflexivity.
  - split; [exact I|]. constructor; [exact I|constructor].
  - cbn. constructor; [exact I|constructor].
Qed.
Lemma margU_val (k : nat) y : (k < 2)%nat -> y 0%nat = Some (INR k) -> fun_of margU y 0%nat 0%nat 0%nat = / 2.
Proof.
  intros Hk Hy. unfold margU. cbn [fun_of schan skel out_shape channels l_ch sl_ch fl_ch mk_fleaf bsum]. unfold schan.
  cbn [skel out_shape channels l_ch sl_ch fl_ch mk_fleaf bsum].
  assert (forall i, (i < 2)%nat -> softmax 2 (fun j => ln (softmax 2 (fun _ => 0) j)) i = / 2) as S.
  { intros i Hi. rewrite (softmax2 (fun j => softmax 2 (fun _ => 0) j)); auto; rewrite ?unif2 by lia; lra. }
  rewrite !S by lia. unfold leaf_fun. cbn [sl_scope fl_scope mk_fleaf query nth fl_fam]. rewrite Hy, !pr_categorical, !half2_soft by assumption. field.
Qed.
Lemma unifM_val (k j : nat) y : (k < 2)%nat -> (j < 2)%nat -> y 0%nat = Some (INR k) -> y 1%nat = Some (INR j) ->
  fun_of unifM y 0%nat 0%nat 0%nat = / 4.
Proof.
  intros Hk Hj Hy Hz. unfold unifM, cat2. cbn [fun_of]. unfold schan, sfeat. cbn [skel out_shape channels features l_ch sl_ch fl_ch mk_fleaf bsum bprod l_scope sl_scope fl_scope query length].
  unfold leaf_fun. cbn [sl_scope fl_scope mk_fleaf query nth fl_fam]. rewrite Hy, Hz, !pr_categorical, !half2_soft, !unif2 by (assumption || lia). field.
Qed.
Definition exF : expsocs := mkExp unifM [compM].
Definition exG : expsocs := mkExp margU [margC].
Lemma exF_ok : expcomp two exF.
Proof.
  constructor; [exact unifM_ok|constructor; [exact compM_ok|constructor]|].
  intros m la lb lc [<-|[]] [<-|[]] [<-|[]] [<-|[]] _ _; cbn; auto.
Qed.
Lemma exG_ok : expcomp two exG.
Proof.
  constructor; [exact margU_ok|constructor; [exact margC_ok|constructor]|].
  intros m la lb lc [<-|[]] [<-|[]] [<-|[]] [<-|[]] _ _; cbn; auto.
Qed.
Lemma exF_Z : exists Z, exp_Z exF = Ok Z /\ Z = 73 / 1024.
Proof. eexists. split; [reflexivity|]. cbn -[softmax pm half2]. rewrite !unif2, !half2_soft, !pm_soft by lia. unfold pm. field. Qed.
Lemma exG_Z : exists Z, exp_Z exG = Ok Z /\ Z = 17 / 64.
Proof.
  assert (forall i, (i < 2)%nat -> softmax 2 (fun j => ln (softmax 2 (fun _ => 0) j)) i = / 2) as S.
  { intros i Hi. rewrite (softmax2 (fun j => softmax 2 (fun _ => 0) j)); auto; rewrite ?unif2 by lia; lra. }
  eexists. split; [reflexivity|]. cbn -[softmax pm half2]. rewrite !S, !half2_soft, !pm_soft by lia. unfold pm. field.
Qed.
Lemma rowkj_supp1 (y : row) fam : (forall f c r a, (f < 1)%nat -> y 0%nat = Some a -> supp (fam f c r) a = true) -> (exists a, y 0%nat = Some a) ->
  in_support (SLeaf (SFam (mk_fleaf (mkScope [0]%nat []) 2 1 fam))) y.
Proof.
  intros H (a & Ha). constructor; [|constructor]. cbn [fl_scope mk_fleaf query fl_fam length]. intros f c r Hf _ _.
  destruct f as [|f]; [|lia]. exists a. split; [exact Ha|]. apply H; [lia|exact Ha].
Qed.
Theorem C257_marginalize_refuted : exists mono cs e e' x v v0 v1,
  mk_expsocs mono cs = Ok e /\ expcomp two e /\
  exp_marg [1]%nat true e = Ok (Some e') /\
  exp_ll e' x = Ok v /\ exp_ll e (upd x 1 (Some 0)) = Ok v0 /\ exp_ll e (upd x 1 (Some 1)) = Ok v1 /\
  pr v <> pr v0 + pr v1.
Proof.
  destruct exF_Z as (ZF & EF & VF), exG_Z as (ZG & EG & VG).
  assert (tiny <= / 10 ^ 2) as T' by (unfold tiny; apply Rinv_le_contravar; [lra|apply Rle_pow; [lra|lia]]).
  assert (forall j, (j < 2)%nat -> exists t, exp_ll exF (rowkj 0 j) = Ok t) as H.
  { intros j Hj. assert (In (rowkj 0 j) xs2 \/ True) as _ by auto.
    assert (forall p, in_support (cat2 [0; 1]%nat 2 p) (rowkj 0 j)) as IS.
    { intros p. constructor; [|constructor]. cbn [fl_scope mk_fleaf query fl_fam length]. intros f c r Hf _ _.
      destruct f as [|[|f]]; [exists (INR 0)|exists (INR j)|lia]; (split; [reflexivity|apply cat_supp; lia]). }
    pose proof unifM_ok as [[B _] _ _ _ US _ _]. pose proof compM_ok as [[B' _] _ _ _ US' _ _].
    apply (exp_accepts exF _ ZF); auto; [exact I|exact (IS half2)|]. constructor; [|constructor]. split; [assumption|]. split; [exact I|]. split; [assumption|]. exact (IS pm). }
  assert (exists t, exp_ll exG (rowkj 0 0) = Ok t) as (t & Et).
  { pose proof margU_ok as [[B _] _ _ _ US _ _]. pose proof margC_ok as [[B' _] _ _ _ US' _ _].
    assert (forall p : nat -> nat -> nat -> R, in_support (SLeaf (SFam (mk_fleaf (mkScope [0]%nat []) 2 1 (fun f c _ => FCategorical 2 (fun k => ln (p (nth f [0]%nat 0%nat) c k)))))) (rowkj 0 0)) as IS.
    { intros p. apply rowkj_supp1; [|exists (INR 0); reflexivity]. intros f c r a _ [= <-]. apply (cat_supp 0 2). lia. }
    apply (exp_accepts exG _ ZG); auto; [exact I|exact (IS half2)|]. constructor; [|constructor]. split; [assumption|]. split; [exact I|]. split; [assumption|]. exact (IS pm). }
  destruct (H 0%nat ltac:(lia)) as (t0 & E0), (H 1%nat ltac:(lia)) as (t1 & E1).
  assert (forall k j, complete margC (rowkj k j)) as H1.
  { intros k j. split; [intros v [<-|[]]; cbn; eauto|]. constructor; [exact I|constructor]. }
  assert (forall k j, complete compM (rowkj k j)) as H2.
  { intros k j. split; [intros v [<-|[<-|[]]]; cbn; eauto|]. constructor; [exact I|constructor]. }
  assert (forall j, upd (rowkj 0 0) 1 (Some (INR j)) = rowkj 0 j) as Eu.
  { intros j. apply FunctionalExtensionality.functional_extensionality. intros v. unfold upd, rowkj. destruct v as [|[|v]]; reflexivity. }
  exists unifM, [compM], exF, exG, (rowkj 0 0), t, t0, t1. split; [reflexivity|]. split; [exact exF_ok|]. split; [reflexivity|]. split; [exact Et|].
  split; [rewrite <- (Eu 0%nat) in E0; exact E0|]. split; [rewrite <- (Eu 1%nat) in E1; exact E1|].
  rewrite (exp_value two exG _ t ZG exG_ok eq_refl ltac:(repeat constructor) ltac:(constructor; [apply H1|constructor]) EG Et).
  rewrite (exp_value two exF _ t0 ZF exF_ok eq_refl ltac:(repeat constructor) ltac:(constructor; [apply H2|constructor]) EF E0).
  rewrite (exp_value two exF _ t1 ZF exF_ok eq_refl ltac:(repeat constructor) ltac:(constructor; [apply H2|constructor]) EF E1).
  unfold expsq, squares. cbn [exF exG x_mono x_comps map lsumR].
  rewrite (margU_val 0), (unifM_val 0 0), (unifM_val 0 1), (margC_val 0), (compM_val 0 0), (compM_val 0 1) by (reflexivity || lia).
  rewrite VF, VG. rewrite !(Rmax_left _ 0) by lra. rewrite !Rmax_left by lra. unfold pm. lra.
Qed.
Print Assumptions C257_marginalize_refuted.

(** C258: nothing checks that [monotone] is monotone: with a SignedSum there the
    constructor succeeds and every log_likelihood raises. *)
Theorem C258_monotone_unchecked_refuted : exists mono cs e, mk_expsocs mono cs = Ok e /\ expcomp two e /\ forall x, exp_ll e x = Err.
Proof.
  exists compS, [compM], (mkExp compS [compM]). split; [reflexivity|]. split; [|reflexivity].
  constructor; [exact compS_ok|constructor; [exact compM_ok|constructor]|].
  intros m la lb lc [<-|[]] [<-|[]] [<-|[]] [<-|[]] _ _; cbn; auto.
Qed.
Print Assumptions C258_monotone_unchecked_refuted.

(** C259: SOCS is not normalised once its partition function falls below 1e-30, where
    the code clamps it: for a hundred uniform binary variables the total mass is below
    one. *)
Definition uni (n : nat) : smod := SProduct (cat2 (seq 0 n) 1 half2).
Definition cell2 (n : nat) (y : row) : Prop := forall v, (v < n)%nat -> exists k, (k < 2)%nat /\ y v = Some (INR k).
Definition n100 : nat := Nat.mul 10 10.
Lemma uni_ok : component 1 two (uni n100).
Proof.
  constructor.
  - split; [cbn [uni cat2 skel]; apply b_leaf2; reflexivity|reflexivity].
  - constructor; [|constructor]. cbn [sl_scope fl_scope mk_fleaf query]. generalize n100. clear. intros n. generalize 0%nat. induction n as [|n IH]; intros a; cbn [seq]; constructor; [apply IH|].
    apply Forall_forall. intros v Hv. apply in_seq in Hv. lia.
  - constructor; [|constructor]. cbn [sleaf_fits fl_fam mk_fleaf]. intros. split; [reflexivity|left; reflexivity].
  - intros la lb [<-|[]] [<-|[]] _. cbn [exact_leaves fl_fam mk_fleaf]. intros. exact I.
  - constructor; [|constructor]. intros f c r _ a. reflexivity.
  - split; [exact I|]. constructor; [exact I|constructor].
  - constructor; [exact I|constructor].
Qed.
Definition K_uni : T4 := ip2 slipv (uni n100) (uni n100).
Lemma ip_uni : inner_product_matrix (uni n100) (uni n100) = Ok K_uni. Proof. vm_compute. reflexivity. Qed.
Lemma bprod_half n (g : nat -> R) : (forall f, (f < n)%nat -> g f = 1 / 2) -> bprod n g = (1 / 2) ^ n.
Proof. induction n as [|n IH]; intros H; [reflexivity|]. cbn [bprod]. rewrite IH by (intros; apply H; lia). rewrite H by lia. cbn [pow]. ring. Qed.
Lemma K_uni_val : K_uni 0%nat 0%nat 0%nat 0%nat = (1 / 2) ^ n100.
Proof.
  unfold K_uni, uni. rewrite ip2_product. change (sfeat (cat2 (seq 0 n100) 1 half2)) with n100. apply bprod_half. intros f Hf.
  cbn -[softmax half2 n100 seq]. rewrite !half2_soft by lia. lra.
Qed.
Lemma pow100 : (1 / 2) ^ n100 < tiny.
Proof.
  unfold tiny. replace (1 / 2) with (/ 2) by lra. rewrite pow_inv. apply Rinv_lt_contravar.
  - apply Rmult_lt_0_compat; apply pow_lt; lra.
  - change n100 with (10 * 10)%nat. change 30%nat with (3 * 10)%nat. rewrite !pow_mult. apply (Rle_lt_trans _ (1000 ^ 10)); [right; f_equal; ring|].
    assert (forall n, 0 < 1000 ^ S n < 1024 ^ S n) as H.
    { induction n as [|n IH]; [cbn; lra|]. change (1000 ^ S (S n)) with (1000 * 1000 ^ S n). change (1024 ^ S (S n)) with (1024 * 1024 ^ S n). split; [|apply Rmult_gt_0_lt_compat]; try lra. }
    replace (2 ^ 10) with 1024 by ring. apply (H 9%nat).
Qed.
Theorem C259_underflow_refuted : exists cs (dens : row -> R) u,
  Forall (component 1 two) cs /\ mk_socs cs = Ok cs /\
  (forall y, cell2 n100 y -> exists t, socs_ll cs y = Ok t /\ pr (t 0%nat 0%nat 0%nat) = dens y) /\
  sums_over two (seq 0 n100) dens blank u /\ u < 1.
Proof.
  assert (exists Z, partition [uni n100] = Ok Z /\ Z 0%nat 0%nat 0%nat = K_uni 0%nat 0%nat 0%nat 0%nat) as (Z & EZ & VZ).
  { eexists. split; [unfold partition; cbn [mapR]; rewrite ip_uni; reflexivity|]. cbn [map lsumR]. ring. }
  assert (pos_ok 1 (uni n100) 0 0 0) as P by (constructor; unfold sfeat, schan; cbn -[n100 seq]; lia).
  assert (forall v, In v (seq 0 n100) <-> In v (vars_of (uni n100) 0)) as HV.
  { pose proof (cm_built _ _ _ uni_ok) as [B _]. intros v. rewrite (scalar_vars _ B eq_refl). reflexivity. }
  exists [uni n100], (fun y => squares [uni n100] y 0%nat 0%nat 0%nat / tiny), ((1 / 2) ^ n100 / tiny).
  pose proof pow100 as PW. pose proof tiny_pos as T.
  split; [constructor; [exact uni_ok|constructor]|]. split; [reflexivity|]. split; [|split].
  - intros y Hy. pose proof uni_ok as [[B U] C2 C3 C4 US C6 C7].
    destruct (socs_accepts [uni n100] y Z) as (t & Et); [|exact EZ|].
    + constructor; [|constructor]. split; [exact B|]. split; [exact I|]. split; [exact US|]. constructor; [|constructor]. cbn [fl_scope mk_fleaf query fl_fam].
      intros f c r Hf _ _. rewrite seq_length in Hf. rewrite seq_nth by assumption. destruct (Hy f Hf) as (k & Hk & E). exists (INR k). split; [exact E|]. now apply cat_supp.
    + exists t. split; [exact Et|]. rewrite (socs_value 1 [uni n100] y t Z 0%nat 0%nat 0%nat); [|constructor; [|constructor]|exact EZ|exact Et].
      * rewrite VZ, K_uni_val, Rmax_right by lra. reflexivity.
      * repeat (split; [assumption|]). split; [split; assumption|]. split; [assumption|]. split; [assumption|]. split; [assumption|]. split; [|exact P]. split.
        -- intros v Hv. cbn [uni cat2 skel scope_of l_scope sl_scope fl_scope mk_fleaf query] in Hv. apply in_seq in Hv. destruct (Hy v ltac:(lia)) as (k & _ & E). eauto.
        -- constructor; [exact I|constructor].
  - rewrite <- K_uni_val, <- VZ. unfold Rdiv. rewrite Rmult_comm.
    apply (sums_over_ext two (seq 0 n100) (fun y => / tiny * squares [uni n100] y 0%nat 0%nat 0%nat)); [intros; apply Rmult_comm|].
    apply sums_over_scal. apply (partition_integral 1); auto.
    + discriminate.
    + constructor; [exact uni_ok|constructor].
    + apply seq_NoDup.
  - apply (Rmult_lt_reg_r tiny); [lra|]. unfold Rdiv. rewrite Rmult_assoc, Rinv_l by lra. lra.
Qed.
Print Assumptions C259_underflow_refuted.
