(** Histogram leaves: mass bounds, mode, sampling, fitting, bin edges. *)
From Coq Require Import List Arith ZArith Bool Reals Lra Lia.
From Coquelicot Require Import Coquelicot.
From Verif Require Import Base ScopeModel CircuitModel CircuitEval Integral CircuitMarg LeafModel LeafProofs LeafNorm LeafTop SampleModel SampleSpec CtxModel CtxProofs ExpUnique EmProofs MleModel IvProofs HistModel HistSpec HistProofs.
Import ListNotations.
Local Open Scope R_scope.

Section T.
  Variable h : hist.
  Hypothesis OK : hist_ok h.
  Let B := nbins h.

  Lemma mw_greatest w : greatest B (fun i => edge h (S i) - edge h i) w <-> w = mw h.
  Proof. apply (rmaxn_greatest B (h_width h) w (B_pos h OK)). Qed.
  Lemma mw_ge b : (b < B)%nat -> h_width h b <= mw h.
  Proof. intros Hb. apply (rmaxn_ge (nbins h) (h_width h) b Hb). Qed.

  Lemma floor_le b : (b < B)%nat -> 0 <= h_minp h * (h_width h b / mw h) <= h_minp h.
  Proof.
    intros Hb. pose proof (mw_pos h OK) as M. pose proof (width_pos h OK b Hb) as W. pose proof (mw_ge b Hb) as L.
    assert (0 <= h_width h b / mw h <= 1) as [Q1 Q2].
    { split; [apply Rmult_le_pos; [lra|left; now apply Rinv_0_lt_compat]|].
      apply Rmult_le_reg_r with (mw h); [assumption|]. unfold Rdiv. rewrite Rmult_assoc, Rinv_l by lra. lra. }
    assert (0 <= h_minp h) as P by apply OK. split; [now apply Rmult_le_pos|].
    rewrite <- (Rmult_1_r (h_minp h)) at 2. now apply Rmult_le_compat_l.
  Qed.
  Lemma mass_bounds : 1 <= hmass h <= 1 + INR B * h_minp h.
  Proof.
    unfold hmass. rewrite <- (probs_sum h OK). fold B. split.
    - apply bsum_le. intros. apply Rmax_l.
    - rewrite <- (bsum_const B (h_minp h)), <- bsum_plus. apply bsum_le. intros b Hb.
      pose proof (floor_le b Hb). pose proof (probs_nonneg h OK b). unfold Rmax. destruct (Rle_dec _ _); lra.
  Qed.
  Lemma clamp_free_spec : clamp_free h <-> forall b, (b < B)%nat -> h_minp h / mw h <= h_probs h b / h_width h b.
  Proof.
    unfold clamp_free. split.
    - intros H b Hb. apply (H b (mw h) Hb). now apply mw_greatest.
    - intros H b w Hb Hw. apply mw_greatest in Hw. subst w. now apply H.
  Qed.
  Lemma clamp_term b : (b < B)%nat -> (h_minp h / mw h <= h_probs h b / h_width h b <-> h_minp h * (h_width h b / mw h) <= h_probs h b).
  Proof.
    intros Hb. pose proof (mw_pos h OK) as M. pose proof (width_pos h OK b Hb) as W. split; intros H.
    - apply (Rmult_le_compat_r (h_width h b)) in H; [|lra]. unfold Rdiv in *. rewrite (Rmult_assoc (h_probs h b)), Rinv_l in H by lra. lra.
    - apply (Rmult_le_reg_r (h_width h b)); [assumption|]. unfold Rdiv in *. rewrite (Rmult_assoc (h_probs h b)), Rinv_l by lra. lra.
  Qed.
  Lemma mass_one_iff : hmass h = 1 <-> clamp_free h.
  Proof.
    rewrite clamp_free_spec. unfold hmass. fold B. split.
    - intros E b Hb. apply (clamp_term b Hb).
      assert (bsum B (fun b => Rmax (h_probs h b) (h_minp h * (h_width h b / mw h)) - h_probs h b) = 0) as Z.
      { replace 0 with (1 - 1) by ring. rewrite <- E at 1. rewrite <- (probs_sum h OK). fold B.
        unfold Rminus. rewrite bsum_plus. f_equal. rewrite <- (Rmult_1_l (bsum B (h_probs h))), <- Ropp_mult_distr_l_reverse.
        rewrite <- bsum_scal. apply bsum_ext. intros; ring. }
      assert (Rmax (h_probs h b) (h_minp h * (h_width h b / mw h)) - h_probs h b = 0) as K.
      { apply (bsum_nonneg_zero B _ b) in Z; [exact Z| |assumption].
        intros i Hi. pose proof (Rmax_l (h_probs h i) (h_minp h * (h_width h i / mw h))). cbv beta. lra. }
      pose proof (Rmax_r (h_probs h b) (h_minp h * (h_width h b / mw h))). lra.
    - intros H. rewrite <- (probs_sum h OK). fold B. apply bsum_ext. intros b Hb. apply Rmax_left. apply (clamp_term b Hb). now apply H.
  Qed.
  Lemma normalised_iff : sums DReal (fun x => pr (h_log_prob h x)) 1 <-> clamp_free h.
  Proof.
    rewrite <- mass_one_iff. split; intros H.
    - exact (sums_unique DReal _ _ _ (mass_sums h OK) H).
    - rewrite <- H. apply mass_sums. exact OK.
  Qed.
  Lemma dens_free b : clamp_free h -> (b < B)%nat -> dens h b = h_probs h b / h_width h b.
  Proof. intros H Hb. unfold dens. apply Rmax_left. exact (proj1 clamp_free_spec H b Hb). Qed.

  (** mode *)
  Definition mbin : nat := rargmax B (h_probs h).
  Lemma mbin_lt : (mbin < B)%nat. Proof. apply rargmax_lt, B_pos, OK. Qed.
  Lemma mode_bin : in_bin h mbin (h_mode h) /\ h_mode h = (edge h mbin + edge h (S mbin)) / 2 /\
    forall b, (b < B)%nat -> h_probs h b <= h_probs h mbin.
  Proof.
    split; [|split; [reflexivity|apply rargmax_max]]. unfold in_bin, h_mode, h_mid. fold B mbin.
    pose proof (width_pos h OK mbin mbin_lt) as W. unfold h_width in W. lra.
  Qed.
  Lemma mode_density w : (forall b, (b < B)%nat -> edge h (S b) - edge h b = w) ->
    forall x, pr (h_log_prob h x) <= pr (h_log_prob h (h_mode h)).
  Proof.
    intros Hw x. destruct mode_bin as (M1 & _ & M2). rewrite (pr_in_bin h OK mbin _ mbin_lt M1).
    pose proof (mw_pos h OK) as MP. assert (0 <= h_minp h) as P by apply OK.
    assert (0 <= dens h mbin) as D0.
    { unfold dens. eapply Rle_trans; [|apply Rmax_r]. apply Rmult_le_pos; [assumption|left; now apply Rinv_0_lt_compat]. }
    destruct (in_support h x) eqn:E.
    - destruct (support_bin h x E) as (b & Hb & Hx). rewrite (pr_in_bin h OK b x Hb Hx). unfold dens.
      apply Rle_max_compat_r. unfold h_width. rewrite (Hw b Hb), (Hw mbin mbin_lt).
      apply Rmult_le_compat_r; [|now apply M2]. left. apply Rinv_0_lt_compat. rewrite <- (Hw mbin mbin_lt). apply (width_pos h OK mbin mbin_lt).
    - rewrite (out_of_bins h x); [assumption|]. destruct (Rlt_le_dec x (edge h 0)); [now left|right].
      destruct (Rlt_le_dec x (edge h B)); [|assumption]. assert (in_support h x = true) by (apply (support_spec h); auto). congruence.
  Qed.

  (** sampling *)
  Lemma sample_expects phi I : (forall b, (b < B)%nat -> is_RInt phi (edge h b) (edge h (S b)) (I b)) ->
    expects (fun _ => DReal) (h_sample h) phi (bsum B (fun b => h_probs h b * (I b / h_width h b))).
  Proof.
    intros H. cbn [h_sample expects]. exists (fun b => I b / h_width h b). split; [|reflexivity].
    intros b Hb _. exists (fun u => phi (edge h b + u * (edge h (S b) - edge h b))). split; [reflexivity|].
    pose proof (width_pos h OK b Hb) as W. set (w := h_width h b) in *. fold (h_width h b). fold w.
    apply sums_ext with (f := fun u => pr (fam_lp (FUniform 0 1) u) * phi (edge h b + u * w)); [reflexivity|].
    apply (sums_compact _ 0 1); [lra| |].
    - intros u Hu. rewrite uniform_dens by lra. unfold binb, edge. cbn [h_edges nth].
      destruct (Rle_dec 0 u); [|ring]. destruct (Rlt_dec u 1); [lra|ring].
    - apply (is_RInt_ext (fun u => scal (/ w) (w * phi (w * u + edge h b)))).
      + intros u Hu. rewrite Rmin_left, Rmax_right in Hu by lra. rewrite uniform_dens by lra. unfold binb, edge. cbn [h_edges nth].
        destruct (Rle_dec 0 u); [|lra]. destruct (Rlt_dec u 1); [|lra]. unfold scal; cbn; unfold mult; cbn.
        replace (w * u + nth b (h_edges h) 0) with (nth b (h_edges h) 0 + u * w) by ring. field. lra.
      + replace (I b / w) with (scal (/ w) (I b)) by (unfold scal; cbn; unfold mult; cbn; field; lra).
        apply (is_RInt_scal (V := R_CompleteNormedModule)). apply (is_RInt_comp_lin (V := R_CompleteNormedModule) phi w (edge h b) 0 1).
        replace (w * 0 + edge h b) with (edge h b) by ring. replace (w * 1 + edge h b) with (edge h (S b)) by (unfold w, h_width; ring).
        now apply H.
  Qed.
  Lemma sample_follows phi I : clamp_free h -> (forall b, (b < B)%nat -> is_RInt phi (edge h b) (edge h (S b)) (I b)) ->
    exists u, expects (fun _ => DReal) (h_sample h) phi u /\ sums DReal (fun x => pr (h_log_prob h x) * phi x) u.
  Proof.
    intros C H. exists (bsum B (fun b => h_probs h b * (I b / h_width h b))). split; [exact (sample_expects phi I H)|].
    replace (bsum B (fun b => h_probs h b * (I b / h_width h b))) with (bsum B (fun b => dens h b * I b)); [exact (dens_integral h OK phi I H)|].
    apply bsum_ext. intros b Hb. rewrite dens_free by assumption. pose proof (width_pos h OK b Hb). field. lra.
  Qed.
End T.

Lemma h_leaf_norm v C P hs : (forall c r, (c < C)%nat -> (r < P)%nat -> hist_ok (hs c r) /\ clamp_free (hs c r)) ->
  leaf_norm (fun _ => DReal) (h_leaf v C P hs).
Proof. intros H f c r _ Hc Hr. destruct (H c r Hc Hr) as [H1 H2]. cbn. now apply normalised_iff. Qed.
