(** Histogram leaves: fitting and automatic bin edges. *)
From Coq Require Import List Arith ZArith Bool Reals Lra Lia.
From Verif Require Import Base ScopeModel CircuitModel CircuitEval Integral LeafModel LeafProofs LeafTop EmProofs MleModel IvProofs HistModel HistSpec HistProofs HistTop.
Import ListNotations.
Local Open Scope R_scope.

Lemma bsum_nonzero n g : bsum n g <> 0 -> exists b, (b < n)%nat /\ g b <> 0.
Proof.
  induction n as [|n IH]; cbn; [lra|]. intros H. destruct (Req_dec (g n) 0) as [Z|Z]; [|exists n; split; [lia|assumption]].
  destruct IH as (b & Hb & N); [lra|]. exists b. split; [lia|assumption].
Qed.

Section F.
  Variable h : hist.
  Hypothesis OK : hist_ok h.
  Let B := nbins h.

  Lemma weight_in_map l b : weight_in h l b = lsumR (map (fun p => fst p * (if binb h b (snd p) then 1 else 0)) l).
  Proof.
    unfold weight_in. induction l as [|p l IH]; [reflexivity|]. cbn [filter map lsumR]. destruct (binb h b (snd p)); cbn [map lsumR]; rewrite IH; ring.
  Qed.
  Lemma weight_group l (g : nat -> R) (k : R -> R) : within h l ->
    (forall b x, (b < B)%nat -> in_bin h b x -> k x = g b) ->
    lsumR (map (fun p => fst p * k (snd p)) l) = bsum B (fun b => weight_in h l b * g b).
  Proof.
    intros HW HK. induction l as [|p l IH].
    - cbn. symmetry. apply bsum_zero. intros b _. unfold weight_in. cbn. ring.
    - cbn [map lsumR]. rewrite IH by (intros q Hq; apply HW; now right).
      destruct (HW p (or_introl eq_refl)) as [_ HS]. apply (proj2 (support_spec h (snd p))) in HS. destruct (support_bin h _ HS) as (b & Hb & Hx).
      rewrite (HK b (snd p) Hb Hx). rewrite (bsum_ext B (fun b => weight_in h (p :: l) b * g b) (fun b => fst p * (if binb h b (snd p) then 1 else 0) * g b + weight_in h l b * g b)).
      + rewrite bsum_plus. f_equal. rewrite (bsum_single B _ b Hb).
        * rewrite (proj2 (binb_spec h b (snd p)) Hx). ring.
        * intros j Hj N. destruct (binb h j (snd p)) eqn:E; [|ring]. apply (binb_spec h) in E. exfalso. apply N.
          exact (bin_unique h OK j b _ Hj Hb E Hx).
      + intros j Hj. rewrite !weight_in_map. cbn [map lsumR]. ring.
  Qed.
  Lemma weight_total l : within h l -> bsum B (weight_in h l) = total l.
  Proof.
    intros HW. pose proof (weight_group l (fun _ => 1) (fun _ => 1) HW (fun _ _ _ _ => eq_refl)) as K.
    rewrite <- (bsum_ext B (fun b => weight_in h l b * 1)) by (intros; ring). rewrite <- K. unfold total. f_equal.
    apply map_ext. intros; ring.
  Qed.
  Lemma weight_nonneg l b : within h l -> 0 <= weight_in h l b.
  Proof.
    intros HW. rewrite weight_in_map. apply lsumR_map_nonneg. intros p Hp. destruct (HW p Hp) as [W _]. destruct (binb _ _ _); lra.
  Qed.
  Lemma counts_weight l b : within h l -> (b < B)%nat ->
    lsumR (map (fun p => fst p * (if Nat.eqb (bucketize (h_edges h) (snd p) - 1) b then 1 else 0)) l) = weight_in h l b.
  Proof.
    intros HW Hb. rewrite weight_in_map. f_equal. apply map_ext_in. intros p Hp. f_equal.
    destruct (HW p Hp) as [_ HS]. apply (proj2 (support_spec h (snd p))) in HS. destruct (support_bin h _ HS) as (b' & Hb' & Hx).
    rewrite (bucket_bin h OK b' _ Hb' Hx). cbn [Nat.sub]. rewrite Nat.sub_0_r.
    destruct (Nat.eqb_spec b' b) as [<-|N].
    - now rewrite (proj2 (binb_spec h b' (snd p)) Hx).
    - destruct (binb h b (snd p)) eqn:E; [|reflexivity]. apply (binb_spec h) in E. exfalso. apply N. exact (bin_unique h OK b' b _ Hb' Hb Hx E).
  Qed.

  Lemma freq_nonneg l b : within h l -> 0 < total l -> 0 <= freq h l b.
  Proof. intros HW T. unfold freq. apply Rmult_le_pos; [now apply weight_nonneg|left; now apply Rinv_0_lt_compat]. Qed.
  Lemma freq_sum l : within h l -> 0 < total l -> bsum B (freq h l) = 1.
  Proof. intros HW T. unfold freq. rewrite bsum_div, weight_total by assumption. field. lra. Qed.

  Section Fit.
    Variable l : list (R * R).
    Hypothesis HW : within h l.
    Let m := h_minp h.
    Hypothesis HT : 0 < total l.
    Hypothesis Hm : m <= total l.
    Hypothesis Hm1 : m <= 1.
    Let c := freq h l.
    Let p1 b := Rmax (c b) m.
    Let p2 b := p1 b / bsum B p1.
    Let p3 b := Rmax (p2 b) m.

    Lemma m0 : 0 <= m. Proof. apply OK. Qed.
    Lemma S1_ge : 1 <= bsum B p1 <= 1 + INR B * m.
    Proof.
      pose proof m0. rewrite <- (freq_sum l HW HT). split.
      - apply bsum_le. intros; apply Rmax_l.
      - rewrite <- (bsum_const B m), <- bsum_plus. apply bsum_le. intros b Hb. unfold p1. pose proof (freq_nonneg l b HW HT).
        unfold c, Rmax. destruct (Rle_dec _ _); lra.
    Qed.
    Lemma p1_nonneg b : 0 <= p1 b. Proof. unfold p1. eapply Rle_trans; [apply m0|apply Rmax_r]. Qed.
    Lemma p2_nonneg b : 0 <= p2 b.
    Proof. unfold p2. pose proof S1_ge. apply Rmult_le_pos; [apply p1_nonneg|left; apply Rinv_0_lt_compat; lra]. Qed.
    Lemma p2_sum : bsum B p2 = 1.
    Proof. unfold p2. pose proof S1_ge. rewrite bsum_div. field. lra. Qed.
    Lemma S3_ge : 1 <= bsum B p3 <= 1 + INR B * m.
    Proof.
      pose proof m0. rewrite <- p2_sum. split.
      - apply bsum_le. intros; apply Rmax_l.
      - rewrite <- (bsum_const B m), <- bsum_plus. apply bsum_le. intros b Hb. unfold p3. pose proof (p2_nonneg b).
        unfold Rmax. destruct (Rle_dec _ _); lra.
    Qed.

    Lemma estimate_eq : exists p, h_estimate h l = Ok p /\ forall b, (b < B)%nat -> p b = p2 b.
    Proof.
      unfold h_estimate. replace (forallb _ _) with true.
      2:{ symmetry. apply forallb_forall. intros p Hp. apply (support_spec h). apply (HW p Hp). }
      cbn [negb]. eexists. split; [reflexivity|]. cbv beta. fold B m.
      set (counts := fun b => lsumR (map (fun p => fst p * (if Nat.eqb (bucketize (h_edges h) (snd p) - 1) b then 1 else 0)) l)).
      assert (bsum B counts = total l) as EC.
      { rewrite <- (weight_total l HW). apply bsum_ext. intros b Hb. now apply counts_weight. }
      assert (forall b, (b < B)%nat -> Rmax (counts b / Rmax (bsum B counts) m) m = p1 b) as E1.
      { intros b Hb. rewrite EC, (Rmax_left (total l) m) by assumption. unfold p1, c, freq. unfold counts. now rewrite counts_weight. }
      intros b Hb. change (fun b0 => lsumR (map (fun p => fst p * (if Nat.eqb (bucketize (h_edges h) (snd p) - 1) b0 then 1 else 0)) l)) with counts.
      fold (counts b). rewrite (E1 b Hb). unfold p2. f_equal. apply bsum_ext. intros j Hj. now apply E1.
    Qed.
    Lemma fit_eq : exists h', h_fit h l = Ok h' /\ h_edges h' = h_edges h /\ h_minp h' = h_minp h /\
      hist_ok h' /\ forall b, (b < B)%nat -> h_probs h' b = p3 b / bsum B p3.
    Proof.
      destruct estimate_eq as (p & E & Hp). unfold h_fit. rewrite E. cbn [bind]. unfold set_probs. fold B m.
      replace (allb _ _) with true.
      2:{ symmetry. apply allb_true. intros b Hb. apply rle_spec. rewrite (Hp b Hb). apply p2_nonneg. }
      cbn [negb]. set (h' := mkHist _ _ _). exists h'. split; [reflexivity|]. split; [reflexivity|]. split; [reflexivity|].
      assert (bsum B p = 1) as P1 by (rewrite <- p2_sum; apply bsum_ext, Hp).
      assert (forall b, (b < B)%nat -> pr (h_logits h' b) = p3 b) as EL.
      { intros b Hb. cbn [h' h_logits]. rewrite P1, (Rmax_left 1 m) by assumption. rewrite (Hp b Hb).
        replace (p2 b / 1) with (p2 b) by field. apply pr_lfrom. eapply Rle_trans; [apply m0|apply Rmax_r]. }
      assert (bsum (nbins h') (fun j => pr (h_logits h' j)) = bsum B p3) as ES by (change (nbins h') with B; apply bsum_ext, EL).
      split.
      - destruct OK as (O1 & O2 & O3 & _). split; [exact O1|]. split; [exact O2|]. split; [exact O3|].
        assert (exists b, (b < B)%nat /\ pr (h_logits h' b) <> 0) as (b & Hb & N).
        { destruct (bsum_nonzero B p3) as (b & Hb & N); [pose proof S3_ge; lra|]. exists b. split; [assumption|]. now rewrite EL. }
        exists b. split; [exact Hb|]. intros C. rewrite C in N. cbn in N. lra.
      - intros b Hb. unfold h_probs. now rewrite ES, (EL b Hb).
    Qed.

    Lemma fit_bounds : exists h', h_fit h l = Ok h' /\ forall b, (b < B)%nat ->
      freq h l b / (1 + INR B * m) ^ 2 <= h_probs h' b <= Rmax (freq h l b) m.
    Proof.
      destruct fit_eq as (h' & E & _ & _ & _ & EP). exists h'. split; [exact E|]. intros b Hb. rewrite (EP b Hb).
      pose proof S1_ge as G1. pose proof S3_ge as G3. set (K := 1 + INR B * m) in *. pose proof (freq_nonneg l b HW HT) as F0.
      assert (forall x S, 0 <= x -> 1 <= S <= K -> x / K <= x / S <= x) as DV.
      { intros x S Hx HS. unfold Rdiv. split.
        - apply Rmult_le_compat_l; [assumption|]. apply Rinv_le_contravar; lra.
        - rewrite <- (Rmult_1_r x) at 2. apply Rmult_le_compat_l; [assumption|]. rewrite <- Rinv_1. apply Rinv_le_contravar; lra. }
      assert (c b / K <= p2 b <= p1 b) as [L2 U2].
      { destruct (DV (p1 b) (bsum B p1) (p1_nonneg b) G1) as [A1 A2]. split; [|exact A2]. eapply Rle_trans; [|exact A1].
        unfold Rdiv. apply Rmult_le_compat_r; [left; apply Rinv_0_lt_compat; lra|apply Rmax_l]. }
      assert (c b / K <= p3 b <= p1 b) as [L3 U3].
      { unfold p3. split; [eapply Rle_trans; [exact L2|apply Rmax_l]|]. apply Rmax_lub; [exact U2|apply Rmax_r]. }
      assert (0 <= c b / K) by (apply Rmult_le_pos; [exact F0|left; apply Rinv_0_lt_compat; lra]).
      destruct (DV (p3 b) (bsum B p3) ltac:(lra) G3) as [A1 A2]. split; [|fold m; fold (c b); fold (p1 b); lra].
      eapply Rle_trans; [|exact A1]. replace (freq h l b / K ^ 2) with (c b / K / K) by (unfold c; field; lra).
      unfold Rdiv at 1 3. apply Rmult_le_compat_r; [left; apply Rinv_0_lt_compat; lra|exact L3].
    Qed.

    Lemma fit_exact : (forall b, (b < B)%nat -> m <= freq h l b) -> exists h', h_fit h l = Ok h' /\
      h_edges h' = h_edges h /\ h_minp h' = h_minp h /\ hist_ok h' /\ forall b, (b < B)%nat -> h_probs h' b = freq h l b.
    Proof.
      intros HF. destruct fit_eq as (h' & E & E1 & E2 & E3 & EP). exists h'. repeat (split; [assumption|]).
      assert (forall b, (b < B)%nat -> p1 b = c b) as Q1 by (intros b Hb; apply Rmax_left, HF, Hb).
      assert (bsum B p1 = 1) as T1 by (rewrite <- (freq_sum l HW HT); apply bsum_ext, Q1).
      assert (forall b, (b < B)%nat -> p3 b = c b) as Q3.
      { intros b Hb. unfold p3, p2. rewrite T1, (Q1 b Hb). replace (c b / 1) with (c b) by field. apply Rmax_left, HF, Hb. }
      assert (bsum B p3 = 1) as T3 by (rewrite <- (freq_sum l HW HT); apply bsum_ext, Q3).
      intros b Hb. rewrite (EP b Hb), T3, (Q3 b Hb). unfold c. field.
    Qed.
  End Fit.

  Lemma fit_raises l : (exists p, In p l /\ ~ (edge h 0 <= snd p < edge h B)) -> h_fit h l = Err.
  Proof.
    intros (p & Hp & N). unfold h_fit, h_estimate. replace (forallb _ _) with false; [reflexivity|]. symmetry.
    apply not_true_is_false. intros C. rewrite forallb_forall in C. specialize (C p Hp). apply (support_spec h) in C. contradiction.
  Qed.

  (** log-likelihood of a sample *)
  Lemma wll_group h2 l : hist_ok h2 -> h_edges h2 = h_edges h -> clamp_free h2 -> within h l ->
    lsumR (map (fun p => fst p * ln (pr (h_log_prob h2 (snd p)))) l) = hll h (h_probs h2) l.
  Proof.
    intros O2 EE C HW. assert (forall b, edge h2 b = edge h b) as Ee by (intros; unfold edge; now rewrite EE).
    assert (nbins h2 = nbins h) as EN by (unfold nbins; now rewrite EE).
    rewrite (weight_group l (fun b => ln (h_probs h2 b / (edge h (S b) - edge h b))) (fun x => ln (pr (h_log_prob h2 x))) HW); [reflexivity|].
    intros b x Hb [Hx1 Hx2]. f_equal. rewrite (pr_in_bin h2 O2 b x).
    - rewrite (dens_free h2 O2 b C) by (rewrite EN; exact Hb). unfold h_width. now rewrite !Ee.
    - rewrite EN. exact Hb.
    - unfold in_bin. rewrite !Ee. auto.
  Qed.
  Lemma hll_max l q : within h l -> 0 < total l -> (forall b, (b < B)%nat -> 0 < freq h l b) ->
    (forall b, (b < B)%nat -> 0 < q b) -> bsum B q = 1 -> hll h q l <= hll h (freq h l) l.
  Proof.
    intros HW HT HF Hq HS. unfold hll. fold B.
    assert (forall b, (b < B)%nat -> 0 < weight_in h l b) as HP.
    { intros b Hb. specialize (HF b Hb). unfold freq in HF. apply Rmult_lt_reg_r with (/ total l); [now apply Rinv_0_lt_compat|].
      rewrite Rmult_0_l. exact HF. }
    pose proof (gibbs B (weight_in h l) q (B_pos h OK) HP Hq HS) as G. rewrite (weight_total l HW) in G.
    enough (bsum B (fun b => weight_in h l b * ln (freq h l b / (edge h (S b) - edge h b))) =
            bsum B (fun i => weight_in h l i * (ln (weight_in h l i / total l) - ln (q i))) +
            bsum B (fun b => weight_in h l b * ln (q b / (edge h (S b) - edge h b)))) as E by lra.
    rewrite <- bsum_plus. apply bsum_ext. intros b Hb. pose proof (width_pos h OK b Hb) as W. unfold h_width in W.
    unfold Rdiv at 1. rewrite ln_mult by (auto using Rinv_0_lt_compat). fold (freq h l b).
    unfold Rdiv at 1. rewrite (ln_mult (q b)) by (auto using Rinv_0_lt_compat). ring.
  Qed.
  Lemma fit_maximises l : within h l -> 0 < total l -> 0 < h_minp h -> h_minp h <= total l ->
    (forall b, (b < B)%nat -> h_minp h <= freq h l b) ->
    exists h', h_fit h l = Ok h' /\ hist_ok h' /\ clamp_free h' /\
      forall h2, hist_ok h2 -> h_edges h2 = h_edges h -> clamp_free h2 -> (forall b, (b < B)%nat -> 0 < h_probs h2 b) ->
        lsumR (map (fun p => fst p * ln (pr (h_log_prob h2 (snd p)))) l) <=
        lsumR (map (fun p => fst p * ln (pr (h_log_prob h' (snd p)))) l).
  Proof.
    intros HW HT M0 MT HF.
    assert (h_minp h <= 1) as M1.
    { eapply Rle_trans; [apply (HF 0%nat), (B_pos h OK)|]. rewrite <- (freq_sum l HW HT).
      apply (bsum_term_le B (freq h l) 0 (B_pos h OK)). intros j _. now apply freq_nonneg. }
    destruct (fit_exact l HW HT MT M1 HF) as (h' & E & EE & EM & O' & EP). exists h'. split; [exact E|]. split; [exact O'|].
    assert (nbins h' = B) as EN by (unfold B, nbins; now rewrite EE).
    assert (clamp_free h') as C'.
    { apply (clamp_free_spec h' O'). intros b Hb. apply (clamp_term h' O' b Hb). rewrite EP by (rewrite <- EN; exact Hb).
      rewrite EM. eapply Rle_trans; [|apply HF; rewrite <- EN; exact Hb].
      pose proof (floor_le h' O' b Hb) as FL. rewrite EM in FL. apply FL. }
    split; [exact C'|]. intros h2 O2 E2 C2 P2. rewrite (wll_group h2 l O2 E2 C2 HW), (wll_group h' l O' EE C' HW).
    assert (hll h (h_probs h') l = hll h (freq h l) l) as ->.
    { unfold hll. apply bsum_ext. intros b Hb. now rewrite EP. }
    apply hll_max; auto. 2:{ assert (nbins h2 = B) as EN2 by (unfold B, nbins; now rewrite E2). pose proof (probs_sum h2 O2) as PS. now rewrite EN2 in PS. }
    intros b Hb. specialize (HF b Hb). lra.
  Qed.

  (** the setter *)
  Lemma set_probs_spec p : (exists h', set_probs h p = Ok h') <-> (forall b, (b < B)%nat -> 0 <= p b).
  Proof.
    unfold set_probs. fold B. destruct (allb B (fun b => rle 0 (p b))) eqn:E; cbn [negb].
    - split; [|eauto]. intros _ b Hb. rewrite allb_true in E. now apply rle_spec, E.
    - split; [intros (h' & H); discriminate|]. intros H. exfalso. enough (allb B (fun b => rle 0 (p b)) = true) by congruence.
      apply allb_true. intros b Hb. now apply rle_spec, H.
  Qed.
  Lemma set_probs_exact p h' : set_probs h p = Ok h' -> 0 < bsum B p -> h_minp h <= bsum B p ->
    (forall b, (b < B)%nat -> h_minp h <= p b / bsum B p) ->
    h_edges h' = h_edges h /\ h_minp h' = h_minp h /\ forall b, (b < B)%nat -> h_probs h' b = p b / bsum B p.
  Proof.
    unfold set_probs. fold B. destruct (allb _ _); [|discriminate]. cbn [negb]. intros [= <-] S0 S1 H. split; [reflexivity|]. split; [reflexivity|].
    assert (forall b, (b < B)%nat -> pr (lfrom (Rmax (p b / Rmax (bsum B p) (h_minp h)) (h_minp h))) = p b / bsum B p) as E.
    { intros b Hb. rewrite (Rmax_left (bsum B p)) by assumption. rewrite Rmax_left by now apply H. apply pr_lfrom.
      assert (0 <= h_minp h) as M by apply OK. specialize (H b Hb). lra. }
    intros b Hb. unfold h_probs. change (nbins (mkHist _ _ _)) with B. cbn [h_logits]. rewrite (E b Hb), (bsum_ext B _ _ E), bsum_div. field. lra.
  Qed.
End F.

(** constructors *)
Lemma mk_hist_logits_spec n es K lg mp h : mk_hist_logits n es K lg mp = Ok h <->
  n = 1%nat /\ (2 <= length es)%nat /\ (forall b, (S b < length es)%nat -> nth b es 0 < nth (S b) es 0) /\
  K = (length es - 1)%nat /\ h = mkHist es (fun b => Fin (lg b)) mp.
Proof.
  unfold mk_hist_logits. destruct (Nat.eqb_spec n 1) as [->|N]; cbn [negb]; [|split; [discriminate|tauto]].
  destruct (edges_ok es) eqn:E; cbn [negb].
  - apply edges_ok_spec in E. destruct (Nat.eqb_spec K (length es - 1)); cbn [negb].
    + split; [intros [= <-]; tauto|intros (_ & _ & _ & _ & ->); reflexivity].
    + split; [discriminate|tauto].
  - split; [discriminate|]. intros (_ & H1 & H2 & _). rewrite (proj2 (edges_ok_spec es)) in E by tauto. discriminate.
Qed.
Lemma mk_hist_ok n es K lg mp h : mk_hist_logits n es K lg mp = Ok h -> 0 <= mp -> hist_ok h.
Proof.
  intros H M. apply mk_hist_logits_spec in H. destruct H as (_ & L & I & _ & ->). split; [exact L|]. split; [|split; [exact M|]].
  - unfold nbins, edge. cbn [h_edges]. intros b Hb. apply I. lia.
  - exists 0%nat. unfold nbins. cbn. split; [lia|discriminate].
Qed.
Lemma mk_hist_probs_spec n es K p mp h : mk_hist_probs n es K p mp = Ok h -> 0 <= mp ->
  (forall b, (b < K)%nat -> 0 <= p b) -> 0 < bsum K p -> hist_ok h /\ forall b, (b < K)%nat -> h_probs h b = p b / bsum K p.
Proof.
  unfold mk_hist_probs. destruct (Nat.eqb_spec n 1) as [->|N]; cbn [negb]; [|discriminate].
  destruct (edges_ok es) eqn:E; cbn [negb]; [|discriminate]. apply edges_ok_spec in E. destruct E as [L I].
  destruct (Nat.eqb_spec K (length es - 1)) as [EK|]; cbn [negb]; [|discriminate]. intros [= <-] M P S.
  assert (forall b, (b < K)%nat -> pr (lfrom (p b)) = p b) as EP by (intros b Hb; apply pr_lfrom, P, Hb).
  split.
  - split; [exact L|]. split; [|split; [exact M|]].
    + unfold nbins, edge. cbn [h_edges]. intros b Hb. apply I. lia.
    + destruct (bsum_nonzero K p) as (b & Hb & N); [lra|]. exists b. unfold nbins. cbn. split; [lia|]. intros C.
      specialize (EP b Hb). rewrite C in EP. cbn in EP. lra.
  - intros b Hb. unfold h_probs, nbins. cbn [h_edges h_logits]. rewrite <- EK, (EP b Hb). f_equal. now apply bsum_ext.
Qed.
