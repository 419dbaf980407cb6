(** Sampling of convolutional circuits at the API level. *)
From Coq Require Import List Arith Bool Lia Lra Permutation Sorted FunctionalExtensionality.
From Verif Require Import Base ScopeModel ScopeProofs CircuitModel CircuitSpec CircuitBasics CircuitEval Integral CircuitMarg CircuitProps SampleModel SampleSpec SampleExp SampleProofs SampleTop SampleApi ConvModel ConvSpec ConvProofs ConvSample ConvTop.
Import ListNotations.
Local Open Scope R_scope.

Section Mix.
Variables (D : nat -> domain) (e : row) (h : nat -> R -> R) (I : leaf -> nat -> nat -> nat -> R).
Hypothesis hpos : forall v a, 0 <= h v a.

Lemma vmix_full v : vwf v -> forall f c r, vpos v f c r -> forall y, (forall u, In u (vnthq v f) -> y u <> None) ->
  vpev (mix e h I y) v f c r = vprob v y f c r * tst e h (vnthq v f) y.
Proof.
  intros Wv f c r P. revert f c r P.
  apply (vind (fun v f c r => forall y, (forall u, In u (vnthq v f) -> y u <> None) ->
    vpev (mix e h I y) v f c r = vprob v y f c r * tst e h (vnthq v f) y)); auto.
  - intros m f c r Wm Am P y Hy. apply (mix_full e h I hpos m Wm Am f c r P y Hy).
  - intros v0 ch w f c r r' W0 EL EN Cp E Hw1 Hw2 IH y Hy. rewrite vprob_pev, !E, EN in *.
    rewrite <- bsum_scal_r. apply bsum_ext. intros i Hi. destruct (IH i Hi) as [_ IHi]. rewrite IHi by assumption. rewrite vprob_pev. ring.
  - intros v0 ch ws f c r W0 EL EN ND E IH y Hy. rewrite vprob_pev, !E, EN in *. unfold tst.
    rewrite lprod_pjoin_win; [|exact W0|exact ND|intros g Hg; now apply IH].
    rewrite <- lprod_mult. apply lprod_ext. intros g Hg. destruct (IH g Hg) as (_ & _ & IHg). rewrite IHg; [reflexivity|].
    intros u Hu. apply Hy. apply prod_In. eauto.
Qed.

Lemma vmix_sums v f c r vs : vwf v -> vleaf_int D h I v -> vpos v f c r -> missing e (vnthq v f) vs ->
  sums_over D vs (fun y => vprob v y f c r * tests h vs y) e (vpev (sc_h e I) v f c r).
Proof.
  intros Wv HI P [ND Hvs].
  assert (vpev (sc_h e I) v f c r = vpev (mix e h I (set_nan vs e)) v f c r) as ->.
  { unfold vpev. do 2 f_equal. apply functional_extensionality. intros l.
    repeat (apply functional_extensionality; intros ?). rewrite <- (mix_e e h). f_equal.
    apply functional_extensionality. intros u. destruct (in_dec Nat.eq_dec u vs) as [Hin|Hn].
    - rewrite set_nan_In by assumption. now apply Hvs.
    - now rewrite set_nan_notIn. }
  eapply sums_over_ext with (g := fun y => vpev (mix e h I y) v f c r); [exact ND| |].
  - intros y Y1 Y2. cbn beta.
    assert (forall u, In u (vnthq v f) -> y u <> None) as Hy.
    { intros u Hu. destruct (in_dec Nat.eq_dec u vs) as [Hin|Hn]; [auto|]. rewrite Y2 by assumption.
      intros C. apply Hn. apply Hvs. auto. }
    rewrite vmix_full by assumption. f_equal. unfold tst, tests.
    rewrite <- lprod_filter with (b := fun v => isnone (e v)) (f := fun v => cell (h v) (y v)). apply lprod_perm.
    apply NoDup_Permutation.
    + apply NoDup_filter. apply ssorted_NoDup. apply (v_sorted v (vwf_vwf1 v Wv)). apply P.
    + exact ND.
    + intros u. rewrite filter_In, Hvs. destruct (e u); cbn; intuition congruence.
  - apply (sums_over_nan D (fun y => vpev (mix e h I y) v f c r) (fun u => In u vs)); [|exact ND|auto].
    intros u x Hu. apply Hvs in Hu. destruct Hu as [Hu Hev].
    apply (vlin1 D v u (fun a => mix e h I (upd x u (Some a))) (mix e h I (upd x u None))); auto.
    + intros l g c' r' a Hn. unfold mix. rewrite !upd_other by assumption. reflexivity.
    + intros l g c' r' Hl Hlr Ecol. unfold mix. rewrite Ecol, upd_same, Hev. cbn [isnone].
      specialize (HI l g c' r' Hl Hlr). rewrite Ecol in HI.
      rewrite pr_lfrom; [|eapply sums_nonneg; [|exact HI]; intros a; apply Rmult_le_pos; [apply pr_nonneg|apply hpos]].
      eapply sums_ext; [|exact HI]. intros a. cbn beta. rewrite upd_same. cbn [isnone].
      rewrite pr_lfrom; [reflexivity|]. apply Rmult_le_pos; [apply pr_nonneg|apply hpos].
Qed.
End Mix.

Lemma vjoint_product v y : vprob (VProduct v) y 0 0 0 = vjoint v y.
Proof. rewrite vprob_pev, vpev_product, <- bprod_lprod. reflexivity. Qed.

Lemma vwiden mpe W ev v c b x : vwf v -> exact_fit v ->
  vsample mpe W ev v (mkCtx [c] [b] 0) x =
  vsample mpe W ev v (mkCtx (repeat c (features (vshape v))) (repeat b (features (vshape v))) 0) x.
Proof.
  intros Wv X. pose proof (vfpos v Wv X) as Fp.
  destruct v as [m|ch co rr lg|ch|ch co K rr lg|ch kh kw ph pw].
  - apply widen. apply Wv.
  - cbn [vsample vshape features] in *. destruct (features (vshape ch)) as [|k] eqn:EF; [lia|].
    rewrite validate_repeat; [|now left|right; now left].
    destruct (validate _ _ _ _); [|reflexivity]. rewrite broadcast_one by lia.
    unfold broadcast at 1. cbn [c_ci]. rewrite repeat_length, Nat.eqb_refl. reflexivity.
  - reflexivity.
  - cbn [vsample vshape features] in *. destruct (features (vshape ch)) as [|k] eqn:EF; [lia|].
    rewrite validate_repeat; [|now left|right; now left].
    destruct (negb _); [reflexivity|]. destruct (negb _); [reflexivity|].
    destruct (validate _ _ _ _); [|reflexivity]. rewrite broadcast_one by lia.
    unfold broadcast at 1. cbn [c_ci]. rewrite repeat_length, Nat.eqb_refl. reflexivity.
  - cbn [vsample]. set (O := features (vshape (VProdConv ch kh kw ph pw))) in *. destruct O as [|k]; [lia|].
    match goal with |- match ?p with _ => _ end = match ?q with _ => _ end => assert (p = q) as ->; [|reflexivity] end.
    unfold prod_route. rewrite validate_repeat; [|now left|right; now left].
    destruct (negb _); [reflexivity|]. cbn [c_ci length]. rewrite Nat.eqb_refl, broadcast_one by lia. rewrite repeat_length.
    assert ((if Nat.eqb (S k) 1 then broadcast (S k) (mkCtx (repeat c (S k)) (repeat b (S k)) 0) else Ok (mkCtx (repeat c (S k)) (repeat b (S k)) 0))
      = Ok (mkCtx (repeat c (S k)) (repeat b (S k)) 0)) as ->; [|reflexivity].
    destruct (Nat.eqb (S k) 1); [|reflexivity]. apply bcast_full. cbn [c_ci]. apply repeat_length.
Qed.

Lemma vsample_product mpe W ev v x : vwf v -> exact_fit v -> (0 < repetitions (vshape v))%nat ->
  vsample mpe W ev v init_ctx x = vsample mpe W ev (VProduct v) init_ctx x.
Proof.
  intros Wv X Hr. unfold init_ctx. rewrite vwiden by assumption. cbn [vsample].
  pose proof (vfpos v Wv X) as Fp. pose proof (v_cpos v (vwf_vwf1 v Wv)) as Cp.
  rewrite broadcast_one by assumption. rewrite validate_full; auto; [now left|].
  cbn. intros f Hf. assert (f = 0%nat) as -> by lia. exact Cp.
Qed.

Section Api.
Variables (D : nat -> domain) (W : nat) (v : cv) (s : shape).
Variables (h : nat -> R -> R) (I : leaf -> nat -> nat -> nat -> R).
Hypotheses (hpos : forall u a, 0 <= h u a) (B : vwf v) (X : exact_fit v) (L : vll_shape v = Ok s)
  (Hr : (0 < repetitions s)%nat) (HW : forall u, In u (query (vscope v)) -> (u < W)%nat) (HI : vleaf_int D h I v).

Lemma vapi_reps : vreps_fine v.
Proof. split; [eauto|]. destruct (vll_shape_spec v s B L) as (_ & _ & <-). exact Hr. Qed.
Lemma vapi_repsP : vreps_fine (VProduct v).
Proof. destruct vapi_reps as [_ H]. split; [|exact H]. cbn [vll_shape]. rewrite L. cbn. eauto. Qed.

Lemma vscope_nthqP u : In u (query (vscope v)) <-> In u (vnthq (VProduct v) 0).
Proof.
  pose proof (exact_covered v B X) as C. rewrite (vscope_base v B C). split.
  - intros Hu. destruct (vnthq_cover (VProduct v) B C u Hu) as (f & Hf & Hin). cbn in Hf. assert (f = 0%nat) as -> by lia. exact Hin.
  - intros Hu. apply (vnthq_base (VProduct v) B 0 u); [cbn; lia|exact Hu].
Qed.

Lemma vsample_expects ev e vs : vevok ev e v -> vjoint v e <> 0 -> missing e (query (vscope v)) vs ->
  exists u, expects D (vsample false W ev v init_ctx e) (tests h vs) u /\
    sums_over D vs (fun y => vjoint v y * tests h vs y) e (u * vjoint v e).
Proof.
  intros Ev J [ND Mi].
  pose proof (vreps_pos v B vapi_reps) as Rp. pose proof (exact_covered v B X) as C.
  assert (vwf (VProduct v)) as WfP by exact B.
  assert (missing e (vnthq (VProduct v) 0) vs) as MiP.
  { split; [exact ND|]. intros u. rewrite Mi, <- vscope_nthqP. reflexivity. }
  assert (vcols_fine W (VProduct v)) as CF.
  { intros u Hu. apply HW. apply (vscope_base v B C). exact Hu. }
  pose proof (vsample_spec D W ev e h I hpos (VProduct v) WfP X HI CF vapi_repsP Ev) as S.
  pose proof (v_cpos v (vwf_vwf1 v B)) as Cp.
  specialize (S init_ctx). destruct S as [T S].
  - repeat split; auto. intros f Hf. cbn in *. assert (f = 0%nat) as -> by lia. exact Cp.
  - intros f Hf _. cbn in Hf. assert (f = 0%nat) as -> by lia. cbn [init_ctx c_ci nth]. unfold VQ1. now rewrite vjoint_product.
  - destruct (S e (fun u _ => eq_refl)) as [S1 S2]. specialize (S1 (fun _ => 1) (fun _ _ => eq_refl)).
    cbn beta in S1. exists (VR e I (VProduct v) init_ctx). split.
    + rewrite vsample_product by assumption. rewrite Rmult_1_l in S1. eapply expects_ext; [|exact S1].
      intros y _. cbn beta. rewrite Rmult_1_l. unfold VT. cbn [vshape features bprod init_ctx c_mask nth].
      rewrite Rmult_1_l. unfold tst, tests.
      rewrite <- lprod_filter with (b := fun u => isnone (e u)) (f := fun u => cell (h u) (y u)). apply lprod_perm.
      apply NoDup_Permutation.
      * apply NoDup_filter. apply ssorted_NoDup. apply (v_sorted _ (vwf_vwf1 _ WfP)). cbn. lia.
      * exact ND.
      * intros u. rewrite filter_In, (proj2 MiP). destruct (e u); cbn; intuition congruence.
    + pose proof (vmix_sums D e h I hpos (VProduct v) 0 0 0 vs WfP HI) as M.
      unfold VR. cbn [vshape features bprod init_ctx c_mask c_ci nth].
      replace ((1 * (VQh e I (VProduct v) 0 0 / VQ1 e (VProduct v) 0 0)) * vjoint v e) with (vpev (sc_h e I) (VProduct v) 0 0 0).
      * eapply sums_over_ext; [exact ND| |apply M].
        -- intros y _ _. cbn beta. now rewrite vjoint_product.
        -- destruct vapi_repsP as [P1 P2]. split; [exact P1|]. split; [cbn; lia|]. split; [exact Cp|exact P2].
        -- exact MiP.
      * unfold VQh, VQ1. rewrite vjoint_product. field. exact J.
Qed.

Lemma vjoint_nan e : (forall u, In u (query (vscope v)) -> e u = None) -> vjoint v e = 1.
Proof.
  intros H. rewrite <- vjoint_product. apply (vprob_all_nan (VProduct v) B).
  - destruct vapi_repsP as [P1 P2]. split; [exact P1|]. split; [cbn; lia|]. split; [apply (v_cpos v (vwf_vwf1 v B))|exact P2].
  - intros u Hu. apply H. now apply vscope_nthqP.
Qed.

Lemma v_conditional e vs : vsums_positive v e -> vjoint v e <> 0 -> missing e (query (vscope v)) vs ->
  exists u, expects D (vsample_with_evidence false W v e) (tests h vs) u /\
    sums_over D vs (fun y => vjoint v y * tests h vs y) e (u * vjoint v e).
Proof.
  intros SP J Mi. unfold vsample_with_evidence. rewrite L. replace (forallb _ _) with true.
  - apply vsample_expects; auto. left. auto.
  - symmetry. apply forallb_forall. intros u Hu. apply Nat.ltb_lt. now apply HW.
Qed.

Lemma v_unconditional x vs : (forall u, In u (query (vscope v)) -> x u = None) -> NoDup vs -> (forall u, In u vs <-> In u (query (vscope v))) ->
  exists u, expects D (vsample0 false W v x) (tests h vs) u /\
    sums_over D vs (fun y => vjoint v y * tests h vs y) x u.
Proof.
  intros Hx ND Hvs. destruct (vsample_expects None x vs) as (u & E & Su).
  - right. split; [reflexivity|]. intros u Hu. apply Hx. apply (vscope_base v B (exact_covered v B X)). exact Hu.
  - rewrite (vjoint_nan x Hx). lra.
  - split; [exact ND|]. intros u. rewrite Hvs. split; [|tauto]. intros Hu. split; [exact Hu|now apply Hx].
  - exists u. split; [exact E|]. rewrite (vjoint_nan x Hx), Rmult_1_r in Su. exact Su.
Qed.

End Api.

(** *** finite domains *)
Lemma vleaf_int_fin (dom : nat -> list R) h v :
  vleaf_int (fun u => DFin (dom u)) h (fun l f c r => lsumR (map (fun a => pr (l_lp l f c r a) * h (colv l f) a) (dom (colv l f)))) v.
Proof. intros l f c r _ _. cbn. reflexivity. Qed.

Lemma vjoint_ext v x x' : (forall u, x u = x' u) -> vjoint v x = vjoint v x'.
Proof. intros H. replace x' with x; [reflexivity|]. apply functional_extensionality, H. Qed.

Lemma v_conditional_fin (dom : nat -> list R) W v s : (forall u, NoDup (dom u)) -> vwf v -> exact_fit v -> vll_shape v = Ok s ->
  (0 < repetitions s)%nat -> (forall u, In u (query (vscope v)) -> (u < W)%nat) ->
  forall e vs y, vsums_positive v e -> vjoint v e <> 0 -> missing e (query (vscope v)) vs ->
  (forall u, In u vs -> exists b, y u = Some b /\ In b (dom u)) -> (forall u, ~ In u vs -> y u = e u) ->
  expects (fun u => DFin (dom u)) (vsample_with_evidence false W v e) (tests (point y) vs) (vjoint v y / vjoint v e).
Proof.
  intros ND B X L Hr HW e vs y SP J Mi Hy Ho.
  destruct (v_conditional (fun u => DFin (dom u)) W v s (point y) _ (point_nonneg y) B X L Hr HW (vleaf_int_fin dom (point y) v) e vs SP J Mi) as (u & E & Su).
  replace (vjoint v y / vjoint v e) with u; [exact E|].
  pose proof (sums_over_point dom y vs (vjoint v) (proj1 Mi)) as P.
  assert (u * vjoint v e = vjoint v y) as <-; [|field; exact J].
  eapply sums_over_unique_fin; [exact Su|]. apply P; [intros w Hw; split; [apply ND|apply Hy; exact Hw]|apply vjoint_ext|].
  intros w Hw. symmetry. now apply Ho.
Qed.

Lemma v_unconditional_fin (dom : nat -> list R) W v s : (forall u, NoDup (dom u)) -> vwf v -> exact_fit v -> vll_shape v = Ok s ->
  (0 < repetitions s)%nat -> (forall u, In u (query (vscope v)) -> (u < W)%nat) ->
  forall x vs y, (forall u, In u (query (vscope v)) -> x u = None) -> NoDup vs -> (forall u, In u vs <-> In u (query (vscope v))) ->
  (forall u, In u vs -> exists b, y u = Some b /\ In b (dom u)) -> (forall u, ~ In u vs -> y u = x u) ->
  expects (fun u => DFin (dom u)) (vsample0 false W v x) (tests (point y) vs) (vjoint v y).
Proof.
  intros ND B X L Hr HW x vs y Hx NDv Hvs Hy Ho.
  destruct (v_unconditional (fun u => DFin (dom u)) W v s (point y) _ (point_nonneg y) B X L Hr HW (vleaf_int_fin dom (point y) v) x vs Hx NDv Hvs) as (u & E & Su).
  replace (vjoint v y) with u; [exact E|].
  eapply sums_over_unique_fin; [exact Su|]. apply sums_over_point; [exact NDv|intros w Hw; split; [apply ND|apply Hy; exact Hw]|apply vjoint_ext|].
  intros w Hw. symmetry. now apply Ho.
Qed.
