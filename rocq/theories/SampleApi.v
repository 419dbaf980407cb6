(** Sampling at the API level: consequences of SampleTop. *)
From Coq Require Import List Arith Bool Lia Lra Permutation.
From Verif Require Import Base ScopeModel ScopeProofs CircuitModel CircuitSpec CircuitBasics CircuitEval Integral CircuitMarg CircuitProps SampleModel SampleSpec SampleExp SampleProofs SampleTop.
Import ListNotations.
Local Open Scope R_scope.

Lemma joint_product m y : prob (MProduct m) y 0 0 0 = joint m y.
Proof. rewrite prob_pev, pev_product. reflexivity. Qed.

Lemma combine_repeat {A B} (a : A) (b : B) n : combine (repeat a n) (repeat b n) = repeat (a, b) n.
Proof. induction n; cbn; congruence. Qed.

Lemma active_repeat n c b k : active_below n (mkCtx (repeat c (S k)) (repeat b (S k)) 0) = active_below n (mkCtx [c] [b] 0).
Proof.
  unfold active_below. cbn [c_ci c_mask]. rewrite combine_repeat. induction k as [|k IH]; [reflexivity|].
  change (repeat (c, b) (S (S k))) with ((c, b) :: repeat (c, b) (S k)). cbn [forallb] in *. rewrite IH. cbn. 
  destruct (implb b (Nat.ltb c n)); reflexivity.
Qed.

Lemma validate_repeat ws n nr c b k : In 1%nat ws -> In (S k) ws ->
  validate ws n nr (mkCtx (repeat c (S k)) (repeat b (S k)) 0) = validate ws n nr (mkCtx [c] [b] 0).
Proof.
  intros H1 Hk. unfold validate. rewrite active_repeat. cbn [c_ci c_mask c_rep]. rewrite !repeat_length, Nat.eqb_refl.
  assert (forall n, In n ws -> existsb (Nat.eqb n) ws = true) as E.
  { intros m Hm. apply existsb_exists. exists m. split; [exact Hm|apply Nat.eqb_refl]. }
  rewrite (E _ Hk). change (length [c]) with 1%nat. change (length [b]) with 1%nat. rewrite (E _ H1). reflexivity.
Qed.

Lemma broadcast_one F c b : (0 < F)%nat -> broadcast F (mkCtx [c] [b] 0) = Ok (mkCtx (repeat c F) (repeat b F) 0).
Proof.
  intros HF. unfold broadcast. cbn [c_ci c_mask length]. destruct (Nat.eqb_spec 1 F) as [<-|N]; reflexivity.
Qed.

Lemma widen mpe W ev m c b x : wf m ->
  sample_m mpe W ev m (mkCtx [c] [b] 0) x =
  sample_m mpe W ev m (mkCtx (repeat c (features (out_shape m))) (repeat b (features (out_shape m))) 0) x.
Proof.
  intros Wf. pose proof (wf_fpos m (wf_wf1 m Wf)) as Fp.
  destruct m as [l|ch co rr lg|d2 sc cs|ch].
  - cbn [sample_m out_shape features] in *. destruct (length (query (l_scope l))) as [|k] eqn:EF; [lia|].
    unfold sample_leaf. rewrite EF. rewrite validate_repeat; [|now left|right; now left].
    destruct (validate _ _ _ _); [|reflexivity].
    unfold scope_cols. set (cols := if forallb _ _ then _ else _).
    assert (forall cl, cols = Ok cl -> length cl = S k) as LC.
    { intros cl. unfold cols. rewrite EF. destruct (forallb _ _); [intros [= <-]; exact EF|].
      destruct (Nat.eqb_spec W (S k)) as [->|]; [|discriminate]. intros E. assert (cl = seq 0 (S k)) as -> by congruence. apply seq_length. }
    destruct cols as [cl|]; [|reflexivity]. specialize (LC cl eq_refl).
    unfold slice_leaf. cbn [c_ci c_mask length]. rewrite repeat_length, LC, Nat.eqb_refl, combine_repeat.
    cbn [combine hd]. destruct (Nat.eqb_spec 1 (S k)) as [E|E]; [|rewrite Nat.eqb_refl; reflexivity].
    rewrite <- E. reflexivity.
  - cbn [sample_m out_shape features] in *. destruct (features (out_shape ch)) as [|k] eqn:EF; [lia|].
    rewrite validate_repeat; [|now left|right; now left].
    destruct (validate _ _ _ _); [|reflexivity]. rewrite broadcast_one by lia.
    unfold broadcast at 1. cbn [c_ci]. rewrite repeat_length, Nat.eqb_refl. reflexivity.
  - cbn [sample_m]. set (sh := out_shape (MCat d2 sc cs)) in *. destruct (features sh) as [|k] eqn:EF; [lia|].
    rewrite validate_repeat; [|now left|right; now left].
    destruct (validate _ _ _ _); [|reflexivity]. rewrite broadcast_one by lia.
    unfold broadcast at 1. cbn [c_ci]. rewrite repeat_length, Nat.eqb_refl. reflexivity.
  - reflexivity.
Qed.

(** sampling from [m] is sampling from the product of its features *)
Lemma sample_product mpe W ev m x : wf m -> (0 < repetitions (out_shape m))%nat ->
  sample_m mpe W ev m init_ctx x = sample_m mpe W ev (MProduct m) init_ctx x.
Proof.
  intros Wf Hr. unfold init_ctx. rewrite widen by assumption. cbn [sample_m].
  pose proof (wf_fpos m (wf_wf1 m Wf)) as Fp. pose proof (wf_cpos m (wf_wf1 m Wf)) as Cp.
  rewrite broadcast_one by assumption. rewrite validate_full; auto; [now left|].
  cbn. intros f Hf. assert (f = 0%nat) as -> by lia. exact Cp.
Qed.

Section Api.
Variables (D : nat -> domain) (W : nat) (m : module) (s : shape).
Variables (h : nat -> R -> R) (I : leaf -> nat -> nat -> nat -> R).
Hypotheses (hpos : forall v a, 0 <= h v a) (B : built m) (A : aligned m) (L : ll_shape m = Ok s)
  (Hr : (0 < repetitions s)%nat) (HW : forall v, vars m v -> (v < W)%nat) (HI : leaf_int D h I m).

Lemma api_reps : reps_fine m.
Proof.
  split; [eauto|]. destruct (ll_shape_spec m s (built_wf m B) L) as (_ & _ & <-). exact Hr.
Qed.
Lemma api_repsP : reps_fine (MProduct m).
Proof.
  destruct api_reps as [_ H]. split; [|exact H]. cbn [ll_shape]. rewrite L. cbn. eauto.
Qed.

Lemma vars_nthqP v : vars m v <-> In v (nthq (MProduct m) 0).
Proof.
  pose proof (built_wf m B) as Wf. rewrite nthq_product by exact Wf. exact (wf_union m (wf_wf1 m Wf) v).
Qed.

Lemma sample_expects ev e vs : evok ev e m -> joint m e <> 0 -> missing e (query (scope_of m)) vs ->
  exists u, expects D (sample_m false W ev m init_ctx e) (tests h vs) u /\
    sums_over D vs (fun y => joint m y * tests h vs y) e (u * joint m e).
Proof.
  intros Ev J [ND Mi]. pose proof (built_wf m B) as Wf.
  pose proof (reps_pos m Wf (proj1 api_reps) (proj2 api_reps)) as Rp.
  assert (wf (MProduct m)) as WfP by exact Wf.
  assert (evok ev e (MProduct m)) as EvP.
  { destruct Ev as [[E P]|[E P]]; [left|right; auto]. split; [exact E|].
    intros n f c Hn Hs Hf Hc. inversion Hn; subst; [contradiction|]. eapply P; eauto. }
  assert (missing e (nthq (MProduct m) 0) vs) as MiP.
  { split; [exact ND|]. intros v. rewrite Mi, <- vars_nthqP. reflexivity. }
  pose proof (sample_spec D W ev e h I (MProduct m) hpos WfP A HI HW api_repsP EvP) as S.
  pose proof (wf_cpos m (wf_wf1 m Wf)) as Cp.
  specialize (S init_ctx). destruct S as [T S].
  - repeat split; auto. intros f Hf. cbn in *. assert (f = 0%nat) as -> by lia. exact Cp.
  - intros f Hf _. cbn in Hf. assert (f = 0%nat) as -> by lia. cbn. unfold Q1. now rewrite joint_product.
  - destruct (S e (fun v _ => eq_refl)) as [S1 S2]. specialize (S1 (fun _ => 1) (fun _ _ => eq_refl)).
    cbn beta in S1. exists (Rset e I (MProduct m) init_ctx). split.
    + rewrite sample_product by assumption. rewrite Rmult_1_l in S1. eapply expects_ext; [|exact S1].
      intros y _. cbn beta. rewrite Rmult_1_l. unfold Tset. cbn [out_shape features bprod init_ctx c_mask nth].
      rewrite Rmult_1_l. unfold tst, tests.
      rewrite <- lprod_filter with (b := fun v => isnone (e v)) (f := fun v => cell (h v) (y v)). apply lprod_perm.
      apply NoDup_Permutation.
      * apply NoDup_filter. apply ssorted_NoDup. apply (wf_sorted _ (wf_wf1 _ WfP)). cbn. lia.
      * exact ND.
      * intros v. rewrite filter_In, (proj2 MiP). destruct (e v); cbn; intuition congruence.
    + pose proof (mix_sums D e h I hpos (MProduct m) 0 0 0 vs WfP A HI) as M.
      unfold Rset. cbn [out_shape features bprod init_ctx c_mask c_ci nth].
      replace ((1 * (Qh e I (MProduct m) 0 0 / Q1 e (MProduct m) 0 0)) * joint m e) with (pev (sc_h e I) (MProduct m) 0 0 0).
      * eapply sums_over_ext; [exact ND| |apply M].
        -- intros y _ _. cbn beta. now rewrite joint_product.
        -- apply pos0; [apply api_repsP|cbn; lia|exact Cp].
        -- exact MiP.
      * unfold Qh, Q1. rewrite joint_product. field. exact J.
Qed.

Lemma joint_nan e : (forall v, vars m v -> e v = None) -> joint m e = 1.
Proof.
  intros H. pose proof (built_wf m B) as Wf. rewrite <- joint_product.
  apply (evalm_scope_nan (MProduct m)); auto.
  apply pos0; [apply api_repsP|cbn; lia|apply (wf_cpos m (wf_wf1 m Wf))].
Qed.
End Api.

(** *** C10 *)
Lemma c10 D W m s h I : (forall v a, 0 <= h v a) -> built m -> aligned m -> ll_shape m = Ok s ->
  (0 < repetitions s)%nat -> (forall v, vars m v -> (v < W)%nat) -> leaf_int D h I m ->
  forall e vs, sums_positive m e -> joint m e <> 0 -> missing e (query (scope_of m)) vs ->
  exists u, expects D (sample_with_evidence false W m e) (tests h vs) u /\
    sums_over D vs (fun y => joint m y * tests h vs y) e (u * joint m e).
Proof.
  intros hpos B A L Hr HW HI e vs SP J Mi. unfold sample_with_evidence. rewrite L.
  replace (forallb _ _) with true.
  - eapply sample_expects; eauto. left. auto.
  - symmetry. apply forallb_forall. intros v Hv. apply Nat.ltb_lt. now apply HW.
Qed.

(** *** C09 *)
Lemma c09 D W m s h I : (forall v a, 0 <= h v a) -> built m -> aligned m -> ll_shape m = Ok s ->
  (0 < repetitions s)%nat -> (forall v, vars m v -> (v < W)%nat) -> leaf_int D h I m ->
  forall x vs, (forall v, vars m v -> x v = None) -> NoDup vs -> (forall v, In v vs <-> vars m v) ->
  exists u, expects D (sample false W m x) (tests h vs) u /\
    sums_over D vs (fun y => joint m y * tests h vs y) x u.
Proof.
  intros hpos B A L Hr HW HI x vs Hx ND Hvs.
  destruct (sample_expects D W m s h I hpos B A L Hr HW HI None x vs) as (u & E & Su).
  - right. auto.
  - rewrite (joint_nan m s B L Hr x Hx). lra.
  - split; [exact ND|]. intros v. rewrite Hvs. split; [|tauto]. intros Hv. split; [exact Hv|now apply Hx].
  - exists u. split; [exact E|]. rewrite (joint_nan m s B L Hr x Hx), Rmult_1_r in Su. exact Su.
Qed.

(** *** finite domains: probabilities of single assignments *)

Lemma point_nonneg y v a : 0 <= point y v a.
Proof. unfold point. destruct (y v); [destruct (Req_EM_T _ _)|]; lra. Qed.

Lemma lsum_point (l : list R) b (g : R -> R) : NoDup l -> In b l ->
  lsumR (map (fun a => (if Req_EM_T a b then 1 else 0) * g a) l) = g b.
Proof.
  induction l as [|a l IH]; intros ND Hin; [contradiction|]. inversion ND as [|? ? Hn ND']; subst. cbn [map lsumR].
  destruct (Req_EM_T a b) as [->|N].
  - assert (lsumR (map (fun a => (if Req_EM_T a b then 1 else 0) * g a) l) = 0) as ->.
    { clear IH ND ND' Hin. induction l as [|c l IH]; [reflexivity|]. cbn [map lsumR].
      destruct (Req_EM_T c b) as [->|]; [exfalso; apply Hn; now left|]. rewrite IH; [lra|]. intros H. apply Hn. now right. }
    lra.
  - destruct Hin as [E|Hin]; [congruence|]. rewrite IH by assumption. lra.
Qed.

Lemma sums_over_unique_fin (dom : nat -> list R) vs g : forall x u w,
  sums_over (fun v => DFin (dom v)) vs g x u -> sums_over (fun v => DFin (dom v)) vs g x w -> u = w.
Proof.
  induction vs as [|v vs IH]; intros x u w; cbn [sums_over].
  - congruence.
  - intros (h1 & A1 & B1) (h2 & A2 & B2). cbn [sums] in *. subst. f_equal. apply map_ext. intros a.
    eapply IH; [apply A1|apply A2].
Qed.

Lemma sums_over_point (dom : nat -> list R) y vs g : NoDup vs ->
  (forall v, In v vs -> NoDup (dom v) /\ exists b, y v = Some b /\ In b (dom v)) ->
  (forall x x', (forall v, x v = x' v) -> g x = g x') ->
  forall x, (forall v, ~ In v vs -> x v = y v) ->
  sums_over (fun v => DFin (dom v)) vs (fun z => g z * tests (point y) vs z) x (g y).
Proof.
  intros ND Hy Hg.
  assert (forall K x, (forall v, ~ In v vs -> x v = y v) ->
    sums_over (fun v => DFin (dom v)) vs (fun z => K * (g z * tests (point y) vs z)) x (K * g y)) as Q.
  { revert ND Hy. induction vs as [|v vs IH]; intros ND Hy K x Hx; cbn [sums_over].
    - cbn. rewrite Rmult_1_r. f_equal. apply Hg. intros v. apply Hx. intros [].
    - inversion ND as [|? ? Hn ND']; subst.
      destruct (Hy v (or_introl eq_refl)) as (NDv & b & Eb & Hb).
      assert (forall a, sums_over (fun v => DFin (dom v)) vs (fun z => K * (g z * tests (point y) (v :: vs) z)) (upd x v (Some a))
         ((if Req_EM_T a b then 1 else 0) * (K * g y))) as H1.
      { intros a. destruct (Req_EM_T a b) as [->|N].
        - rewrite Rmult_1_l. eapply sums_over_ext; [exact ND'| |apply (IH ND')].
          + intros z _ Hz. cbn beta. unfold tests. cbn [lprod]. rewrite (Hz v Hn), upd_same. cbn [cell]. unfold point at 2.
            rewrite Eb. destruct (Req_EM_T b b); [|congruence]. rewrite Rmult_1_l. reflexivity.
          + intros u Hu. apply Hy. now right.
          + intros u Hu. destruct (Nat.eq_dec u v) as [->|Nv]; [now rewrite upd_same|]. rewrite upd_other by assumption.
            apply Hx. intros [E|E]; [congruence|contradiction].
        - rewrite Rmult_0_l.
          assert (forall x0, (x0 v = Some a) -> sums_over (fun v => DFin (dom v)) vs (fun z => K * (g z * tests (point y) (v :: vs) z)) x0 0) as Z.
          { intros x0 E0. clear IH Hx Hy.
            assert (forall ws x1, ~ In v ws -> x1 v = Some a -> sums_over (fun v => DFin (dom v)) ws (fun z => K * (g z * tests (point y) (v :: vs) z)) x1 0) as ZZ.
            { induction ws as [|w ws IHw]; intros x1 Hw E1; cbn [sums_over].
              - unfold tests. cbn [lprod]. rewrite E1. cbn [cell]. unfold point at 1. rewrite Eb.
                destruct (Req_EM_T a b); [congruence|ring].
              - exists (fun _ => 0). split.
                + intros c. apply IHw; [intros X; apply Hw; now right|]. rewrite upd_other; [exact E1|]. intros ->. apply Hw. now left.
                + cbn [sums]. clear. induction (dom w) as [|c l IH]; cbn; [reflexivity|]. rewrite IH. lra. }
            apply ZZ; auto. }
          apply Z. apply upd_same. }
      exists (fun a => (if Req_EM_T a b then 1 else 0) * (K * g y)). split; [exact H1|].
      cbn [sums]. now rewrite (lsum_point (dom v) b (fun _ => K * g y)). }
  intros x Hx. specialize (Q 1 x Hx). rewrite Rmult_1_l in Q. eapply sums_over_ext; [exact ND| |exact Q].
  intros z _ _. cbn beta. ring.
Qed.

(** finite sums always exist *)
Lemma leaf_int_fin (dom : nat -> list R) h m :
  leaf_int (fun v => DFin (dom v)) h (fun l f c r => lsumR (map (fun a => pr (l_lp l f c r a) * h (colv l f) a) (dom (colv l f)))) m.
Proof. intros l f c r _ _. cbn. reflexivity. Qed.

Lemma joint_ext m x x' : (forall v, x v = x' v) -> joint m x = joint m x'.
Proof. intros H. replace x' with x; [reflexivity|]. apply functional_extensionality, H. Qed.

Lemma c10_fin (dom : nat -> list R) W m s : (forall v, NoDup (dom v)) -> built m -> aligned m -> ll_shape m = Ok s ->
  (0 < repetitions s)%nat -> (forall v, vars m v -> (v < W)%nat) ->
  forall e vs y, sums_positive m e -> joint m e <> 0 -> missing e (query (scope_of m)) vs ->
  (forall v, In v vs -> exists b, y v = Some b /\ In b (dom v)) -> (forall v, ~ In v vs -> y v = e v) ->
  expects (fun v => DFin (dom v)) (sample_with_evidence false W m e) (tests (point y) vs) (joint m y / joint m e).
Proof.
  intros ND B A L Hr HW e vs y SP J Mi Hy Ho.
  destruct (c10 (fun v => DFin (dom v)) W m s (point y) _ (point_nonneg y) B A L Hr HW (leaf_int_fin dom (point y) m) e vs SP J Mi) as (u & E & Su).
  replace (joint m y / joint m e) with u; [exact E|].
  pose proof (sums_over_point dom y vs (joint m) (proj1 Mi)) as P.
  assert (u * joint m e = joint m y) as <-; [|field; exact J].
  eapply sums_over_unique_fin; [exact Su|]. apply P; [intros v Hv; split; [apply ND|apply Hy; exact Hv]|apply joint_ext|].
  intros v Hv. symmetry. now apply Ho.
Qed.

Lemma c09_fin (dom : nat -> list R) W m s : (forall v, NoDup (dom v)) -> built m -> aligned m -> ll_shape m = Ok s ->
  (0 < repetitions s)%nat -> (forall v, vars m v -> (v < W)%nat) ->
  forall x vs y, (forall v, vars m v -> x v = None) -> NoDup vs -> (forall v, In v vs <-> vars m v) ->
  (forall v, In v vs -> exists b, y v = Some b /\ In b (dom v)) -> (forall v, ~ In v vs -> y v = x v) ->
  expects (fun v => DFin (dom v)) (sample false W m x) (tests (point y) vs) (joint m y).
Proof.
  intros ND B A L Hr HW x vs y Hx NDv Hvs Hy Ho.
  destruct (c09 (fun v => DFin (dom v)) W m s (point y) _ (point_nonneg y) B A L Hr HW (leaf_int_fin dom (point y) m) x vs Hx NDv Hvs) as (u & E & Su).
  replace (joint m y) with u; [exact E|].
  eapply sums_over_unique_fin; [exact Su|]. apply sums_over_point; [exact NDv|intros v Hv; split; [apply ND|apply Hy; exact Hv]|apply joint_ext|].
  intros v Hv. symmetry. now apply Ho.
Qed.

(** sample(num_samples) for a scope {0, .., n-1} *)
Lemma c09_new (dom : nat -> list R) m s : (forall v, NoDup (dom v)) -> built m -> aligned m -> ll_shape m = Ok s ->
  (0 < repetitions s)%nat -> (forall v, vars m v -> (v < length (query (scope_of m)))%nat) ->
  forall vs y, NoDup vs -> (forall v, In v vs <-> vars m v) ->
  (forall v, In v vs -> exists b, y v = Some b /\ In b (dom v)) -> (forall v, ~ In v vs -> y v = None) ->
  expects (fun v => DFin (dom v)) (sample_new false m) (tests (point y) vs) (joint m y).
Proof. intros ND B A L Hr HW vs y NDv Hvs Hy Ho. unfold sample_new. eapply c09_fin; eauto. Qed.
