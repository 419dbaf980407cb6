(** Lemmas about WeightedSum. *)
From Coq Require Import List Arith Bool Reals Lia Lra Permutation FunctionalExtensionality.
From Verif Require Import Base ScopeModel ScopeProofs CircuitModel CircuitSpec CircuitBasics CircuitEval CircuitProps Integral CircuitMarg MargModel
  SampleModel SampleSpec SampleExp SampleProofs SampleTop SampleApi LeafTop WsModel WsSpec.
Import ListNotations.
Local Open Scope R_scope.

Lemma weights_nonneg_spec w : weights_nonneg w = true <-> nonneg w.
Proof.
  unfold weights_nonneg, nonneg. rewrite allb_true. split.
  - intros H f i o r Hf Hi Ho Hr. specialize (H f Hf). rewrite allb_true in H. specialize (H i Hi). rewrite allb_true in H. specialize (H o Ho). rewrite allb_true in H. specialize (H r Hr).
    unfold rle in H. destruct (Rle_dec _ _); [assumption|discriminate].
  - intros H f Hf. apply allb_true. intros i Hi. apply allb_true. intros o Ho. apply allb_true. intros r Hr. unfold rle. destruct (Rle_dec _ _) as [|N]; [reflexivity|]. exfalso. apply N. now apply H.
Qed.
Lemma spread_dims F w : wI (spread F w) = wI w /\ wO (spread F w) = wO w /\ wR (spread F w) = wR w.
Proof. unfold spread. destruct (_ && _)%bool; repeat split. Qed.
Lemma spread_val F w f i o r : (f < F)%nat -> wv (spread F w) f i o r = wv w (bidx (wF w) f) i o r.
Proof.
  intros Hf. unfold spread, bidx. destruct (Nat.eqb_spec (wF w) 1) as [E|N]; [|reflexivity].
  destruct (Nat.ltb_spec 1 F); cbn [andb]; [reflexivity|]. assert (f = 0)%nat as -> by lia. reflexivity.
Qed.
Lemma spread_F F w : (0 < F)%nat -> (wF (spread F w) = F <-> wF w = F \/ wF w = 1%nat).
Proof. intros HF. unfold spread. destruct (Nat.eqb_spec (wF w) 1) as [E|N], (Nat.ltb_spec 1 F); cbn [andb wF]; lia. Qed.

Lemma pr_ws_ll s x f c r : pr (ws_ll s x f c r) = bsum (channels (out_shape (w_in s))) (fun i => Rmax 0 (wv (w_w s) f i c (bidx (wR (w_w s)) r)) * prob (w_in s) x f i (bidx (ll_reps (w_in s)) r)).
Proof.
  unfold ws_ll. cbv zeta. rewrite pr_lse. apply bsum_ext. intros i Hi. rewrite pr_ladd. unfold prob. rewrite Rmult_comm. f_equal.
  unfold lfrom. destruct (Rlt_dec 0 _) as [L|L]; cbn [pr]; [rewrite exp_ln by exact L; symmetry; apply Rmax_right; lra|symmetry; apply Rmax_left; lra].
Qed.

Section Law.
  Variables (dom : nat -> list R) (W : nat) (s : ws) (t : shape) (x y : row) (vs : list nat).
  Let m := w_in s.
  Let F := features (out_shape m).
  Let n := channels (out_shape m).
  Let D := fun v => DFin (dom v).
  Let g f i := wv (w_w s) f i 0 0.
  Hypothesis ND : forall v, NoDup (dom v).
  Hypothesis B : built m. Hypothesis A : aligned m. Hypothesis L : ll_shape m = Ok t. Hypothesis HR : (0 < repetitions t)%nat.
  Hypothesis HW : forall v, vars m v -> (v < W)%nat.
  Hypothesis EI : wI (w_w s) = n. Hypothesis EO : (0 < wO (w_w s))%nat. Hypothesis ER : (0 < wR (w_w s))%nat.
  Hypothesis HN : forall f i, (f < F)%nat -> (i < n)%nat -> 0 <= g f i.
  Hypothesis Hx : forall v, vars m v -> x v = None.
  Hypothesis NDv : NoDup vs. Hypothesis Hvs : forall v, In v vs <-> vars m v.
  Hypothesis Hy : forall v, In v vs -> exists b, y v = Some b /\ In b (dom v).
  Let Wf := built_wf m B.
  Lemma w_reps : reps_fine m.
  Proof. exact (api_reps m t B L HR). Qed.
  Let I0 : leaf -> nat -> nat -> nat -> R := fun l f c r => lsumR (map (fun a => pr (l_lp l f c r a) * point y (colv l f) a) (dom (colv l f))).
  Lemma w_evok : evok None x m.
  Proof. right. split; [reflexivity|exact Hx]. Qed.
  Lemma w_qh f i : (f < F)%nat -> (i < n)%nat -> Qh x I0 m f i = prob m y f i 0.
  Proof.
    intros Hf Hi. assert (P : pos m f i 0) by (apply pos0; [exact w_reps|exact Hf|exact Hi]).
    assert (Q : forall v, In v (nthq m f) -> vars m v) by (intros v Hv; apply (wf_union m (wf_wf1 m Wf) v); exists f; split; [exact Hf|exact Hv]).
    assert (NDq : NoDup (nthq m f)) by (apply ssorted_NoDup, (wf_sorted m (wf_wf1 m Wf)); exact Hf).
    assert (M : missing x (nthq m f) (nthq m f)) by (split; [exact NDq|]; intros v; split; [intros Hv; split; [exact Hv|apply Hx, Q, Hv]|tauto]).
    pose proof (mix_sums D x (point y) I0 (point_nonneg y) m f i 0 (nthq m f) Wf A (leaf_int_fin dom (point y) m) P M) as S1.
    set (y' := fun v => if in_dec Nat.eq_dec v (nthq m f) then y v else x v).
    pose proof (sums_over_point dom y' (nthq m f) (fun z => prob m z f i 0) NDq) as S2.
    assert (EP : prob m y f i 0 = prob m y' f i 0).
    { unfold prob. f_equal. eapply c04_feature; [exact B|exact A|exact L| |].
      - destruct (ll_shape_spec m t Wf L) as (G1 & G2 & G3). repeat split; [rewrite G1; exact Hf|rewrite G2; exact Hi|exact HR].
      - intros v Hv. unfold y'. destruct (in_dec _ _ _) as [_|N]; [reflexivity|]. exfalso. apply N, Hv. }
    rewrite EP. eapply sums_over_unique_fin; [exact S1|]. eapply sums_over_ext; [exact NDq| |apply S2].
    - intros z _ _. cbn beta. f_equal. unfold tests. apply lprod_ext. intros v Hv. unfold point, y'. destruct (in_dec _ _ _) as [_|N]; [reflexivity|contradiction].
    - intros v Hv. split; [apply ND|]. unfold y'. destruct (in_dec _ _ _) as [_|N]; [|contradiction]. apply Hy, Hvs, Q, Hv.
    - intros z z' E. f_equal. now apply functional_extensionality.
    - intros v Hv. unfold y'. destruct (in_dec _ _ _); [contradiction|reflexivity].
  Qed.
  Lemma w_init : broadcast F init_ctx = Ok (mkCtx (repeat 0%nat F) (repeat true F) 0).
  Proof. apply broadcast_one. exact (wf_fpos m (wf_wf1 m Wf)). Qed.
  Lemma w_valid : validate [1%nat; F] (wO (w_w s)) (wR (w_w s)) init_ctx = true.
  Proof. apply validate_full; [now left|reflexivity|reflexivity| |exact EO|exact ER]. cbn. intros f Hf. assert (f = 0)%nat as -> by lia. exact EO. Qed.

  Hypothesis HS : forall f, (f < F)%nat -> 0 < bsum n (g f).
  Lemma w_pick j : (j < length (repeat 0%nat F))%nat -> ws_pick false s 0 (0 + j) (nth j (repeat 0%nat F) 0%nat) =
    Choose n (fun i => g (0 + j)%nat i / bsum n (g (0 + j)%nat)) (fun i => Ret i).
  Proof.
    rewrite repeat_length. intros Hj. rewrite nth_repeat. unfold ws_pick. cbv zeta. rewrite EI. rewrite (proj2 (Nat.ltb_lt _ _) EO), (proj2 (Nat.ltb_lt _ _) ER). cbn [andb Nat.add].
    change (fun i => wv (w_w s) j i 0 0) with (g j). destruct (Rle_dec (bsum n (g j)) 0) as [K|_]; [exfalso; specialize (HS j Hj); lra|].
    assert (allb n (fun i => rle 0 (g j i)) = true) as AB by (apply allb_true; intros i Hi; unfold rle; destruct (Rle_dec 0 (g j i)) as [|N]; [reflexivity|]; exfalso; apply N, HN; assumption).
    unfold g in AB. unfold g. rewrite AB. reflexivity.
  Qed.
  Lemma ws_law : expects D (ws_sample_data false W s x) (tests (point y) vs)
    (bprod F (fun f => bsum n (fun i => g f i / bsum n (g f) * prob m y f i 0))).
  Proof.
    unfold ws_sample_data, ws_sample. cbv zeta. fold m F. rewrite w_valid, w_init. cbn [c_ci c_mask c_rep].
    pose proof (choose_expects D n (ws_pick false s 0) (fun f _ i => g f i / bsum n (g f)) 1 (fun f i => prob m y f i 0) (repeat 0%nat F) 0 w_pick) as CE.
    rewrite !Rmult_1_l in CE. rewrite repeat_length in CE. cbn [Nat.add] in CE.
    eapply expects_bind with (u2 := fun ns => 1 * bprod F (fun j => prob m y j (nth j ns 0%nat) 0)); [exact CE|].
    intros ns Ho. destruct (choose_outcome n _ (fun f _ i => g f i / bsum n (g f)) (repeat 0%nat F) 0 ns w_pick Ho) as [Ln Hns]. rewrite repeat_length in Ln, Hns.
    pose proof (sample_spec D W None x (point y) I0 m (point_nonneg y) Wf A (leaf_int_fin dom (point y) m) HW w_reps w_evok) as S1.
    destruct (S1 (mkCtx ns (repeat true F) 0)) as [_ S2].
    - repeat split; cbn [c_ci c_mask c_rep]; [exact Ln|apply repeat_length|]. intros f Hf. apply Hns, Hf.
    - cbn [c_ci c_mask]. intros f Hf _. rewrite (evok_Q1 None x m Wf A w_reps eq_refl w_evok); [lra|exact Hf|apply Hns, Hf].
    - destruct (S2 x (fun v _ => eq_refl)) as [S3 _]. specialize (S3 (fun _ => 1) (fun _ _ => eq_refl)). cbn beta in S3.
      replace (Rset x I0 m (mkCtx ns (repeat true F) 0)) with (bprod F (fun j => prob m y j (nth j ns 0%nat) 0)) in S3.
      + eapply expects_ext; [|exact S3]. intros z _. cbn beta. rewrite Rmult_1_l. unfold Tset. cbn [c_mask].
        transitivity (bprod F (fun f => lprod (nthq m f) (fun v => cell (point y v) (z v)))).
        * apply bprod_ext. intros f Hf. rewrite nth_repeat_lt by exact Hf. unfold tst. apply lprod_ext. intros v Hv.
          rewrite Hx; [reflexivity|]. apply (wf_union m (wf_wf1 m Wf) v). exists f. split; [exact Hf|exact Hv].
        * unfold F. rewrite <- (lprod_pjoin m (fun v => cell (point y v) (z v)) Wf). unfold tests. apply lprod_perm. apply NoDup_Permutation.
          -- assert (wf (MProduct m)) as WP by exact Wf. apply ssorted_NoDup, (wf_sorted _ (wf_wf1 _ WP)). cbn. lia.
          -- exact NDv.
          -- intros v. rewrite Hvs. symmetry. apply vars_nthqP. exact B.
      + unfold Rset. cbn [c_mask c_ci]. apply bprod_ext. intros f Hf. rewrite nth_repeat_lt by exact Hf.
        rewrite (evok_Q1 None x m Wf A w_reps eq_refl w_evok); [|exact Hf|apply Hns, Hf]. rewrite w_qh; [unfold Rdiv; rewrite Rinv_1; ring|exact Hf|apply Hns, Hf].
  Qed.
End Law.

(** some row of weights sums to zero: no sample *)
Lemma ws_zero_row W s x : 
  (exists f, (f < features (out_shape (w_in s)))%nat /\ bsum (wI (w_w s)) (fun i => wv (w_w s) f i 0 0) <= 0) ->
  forall z, ~ outcome (ws_sample_data false W s x) z.
Proof.
  intros (f & Hf & Z) z H. unfold ws_sample_data, ws_sample, init_ctx in H. cbv zeta in H.
  destruct (validate _ _ _ _) eqn:V; [|inversion H].
  rewrite broadcast_one in H by lia. cbn [c_ci c_mask c_rep] in H. apply outcome_bind in H. destruct H as (ns & Ho & _).
  assert (Q : forall k f0 ns, outcome (choose_channels (ws_pick false s 0) f0 (repeat 0%nat k)) ns -> forall j, (j < k)%nat -> ~ bsum (wI (w_w s)) (fun i => wv (w_w s) (f0 + j) i 0 0) <= 0).
  { clear. induction k as [|k IH]; intros f0 ns H j Hj; [lia|]. cbn [repeat choose_channels] in H. apply outcome_bind in H. destruct H as (i & Hi & H). apply outcome_bind in H. destruct H as (ms & Hms & _).
    destruct j as [|j].
    - rewrite Nat.add_0_r. intros K. unfold ws_pick in Hi. cbv zeta in Hi. destruct (_ && _)%bool; [|inversion Hi]. destruct (Rle_dec _ 0) as [_|N]; [inversion Hi|]. now apply N.
    - specialize (IH (S f0) ms Hms j ltac:(lia)). now rewrite Nat.add_succ_r. }
  exact (Q _ 0%nat ns Ho f Hf Z).
Qed.

Lemma mask_nonneg S fts w : wF w = length fts -> nonneg w -> nonneg (mask_weights (kidx S fts) w).
Proof.
  intros E H f i o r Hf Hi Ho Hr. cbn [mask_weights wv wF wI wO wR] in *. apply H; auto. rewrite E.
  assert (In (nth f (kidx S fts) 0%nat) (kidx S fts)) as K by (now apply nth_In). unfold kidx in K at 2. apply filter_In in K. destruct K as [K _]. apply in_seq in K. lia.
Qed.
