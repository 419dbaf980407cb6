(** Histogram leaves: density, mass, mode, sampling. *)
From Coq Require Import List Arith ZArith Bool Reals Lra Lia.
From Coquelicot Require Import Coquelicot.
From Verif Require Import Base ScopeModel CircuitModel CircuitEval Integral CircuitMarg LeafModel LeafProofs LeafNorm LeafTop SampleModel SampleSpec CtxModel CtxProofs MleModel IvProofs HistModel HistSpec.
Import ListNotations.
Local Open Scope R_scope.

Lemma rlt_spec a b : rlt a b = true <-> a < b.
Proof. unfold rlt. destruct (Rlt_dec a b); split; intros; congruence || auto; contradiction. Qed.
Lemma rlt_false a b : rlt a b = false <-> b <= a.
Proof. unfold rlt. destruct (Rlt_dec a b); split; intros; try discriminate; try lra; reflexivity. Qed.

(** ** edges *)
Lemma increasing_spec l : increasing l = true <-> forall b, (S b < length l)%nat -> nth b l 0 < nth (S b) l 0.
Proof.
  induction l as [|a [|b l] IH]; [cbn; split; auto; intros; lia|cbn; split; auto; intros; lia|].
  cbn [increasing]. rewrite andb_true_iff, rlt_spec, IH. split.
  - intros [H1 H2] [|k] Hk; cbn [nth]; [assumption|]. apply (H2 k). cbn in *. lia.
  - intros H. split; [apply (H 0%nat); cbn; lia|]. intros k Hk. apply (H (S k)). cbn in *. lia.
Qed.
Lemma nth_mono l : (forall b, (S b < length l)%nat -> nth b l 0 < nth (S b) l 0) ->
  forall i j, (i < j)%nat -> (j < length l)%nat -> nth i l 0 < nth j l 0.
Proof.
  intros H i j. induction j as [|j IH]; [lia|]. intros Hij Hj. destruct (Nat.eq_dec i j) as [->|].
  - now apply H.
  - apply Rlt_trans with (nth j l 0); [apply IH; lia|now apply H].
Qed.
Lemma edges_ok_spec l : edges_ok l = true <-> (2 <= length l)%nat /\ forall b, (S b < length l)%nat -> nth b l 0 < nth (S b) l 0.
Proof. unfold edges_ok. now rewrite andb_true_iff, Nat.leb_le, increasing_spec. Qed.

Lemma bucketize_bin l : (forall b, (S b < length l)%nat -> nth b l 0 < nth (S b) l 0) ->
  forall b x, (b < length l)%nat -> nth b l 0 <= x -> ((S b < length l)%nat -> x < nth (S b) l 0) -> bucketize l x = S b.
Proof.
  unfold bucketize. induction l as [|a l IH]; intros H b x Hb H1 H2; [cbn in Hb; lia|].
  assert (forall k, (S k < length l)%nat -> nth k l 0 < nth (S k) l 0) as H' by (intros k Hk; apply (H (S k)); cbn; lia).
  cbn [filter]. destruct b as [|b].
  - cbn [nth] in H1. rewrite (proj2 (rle_spec a x) H1). cbn [length]. f_equal.
    assert (forall y, In y l -> rle y x = false) as F.
    { intros y Hy. apply rle_false. destruct (In_nth l y 0 Hy) as (k & Hk & <-).
      assert (x < nth 0 l 0) as X0 by (apply (H2 ltac:(cbn; lia))).
      destruct k as [|k]; [assumption|]. pose proof (nth_mono l H' 0 (S k) ltac:(lia) Hk). lra. }
    clear - F. induction l as [|y l IH]; [reflexivity|]. cbn. rewrite (F y) by now left. apply IH. intros z Hz. apply F. now right.
  - rewrite (proj2 (rle_spec a x)).
    + cbn [length]. f_equal. apply (IH H' b x); [cbn in Hb; lia|assumption|]. intros Hs. apply H2. cbn. lia.
    + pose proof (nth_mono (a :: l) H 0 (S b) ltac:(lia) Hb) as N. cbn [nth] in N, H1. lra.
Qed.

Lemma find_bin (e : nat -> R) n x : e 0%nat <= x -> x < e n -> exists b, (b < n)%nat /\ e b <= x < e (S b).
Proof.
  induction n as [|n IH]; intros H0 Hn; [lra|]. destruct (Rlt_le_dec x (e n)) as [H|H].
  - destruct (IH H0 H) as (b & Hb & E). exists b. split; [lia|assumption].
  - exists n. split; [lia|lra].
Qed.

Section H.
  Variable h : hist.
  Hypothesis OK : hist_ok h.
  Let B := nbins h.

  Lemma B_pos : (0 < B)%nat. Proof. destruct OK as (L & _). unfold B, nbins. lia. Qed.
  Lemma B_len : length (h_edges h) = S B. Proof. destruct OK as (L & _). unfold B, nbins. lia. Qed.
  Lemma edges_inc : forall b, (S b < length (h_edges h))%nat -> nth b (h_edges h) 0 < nth (S b) (h_edges h) 0.
  Proof. destruct OK as (L & E & _). intros b Hb. apply E. unfold nbins. lia. Qed.
  Lemma edge_mono i j : (i <= j)%nat -> (j <= B)%nat -> edge h i <= edge h j.
  Proof.
    intros Hij Hj. destruct (Nat.eq_dec i j) as [->|]; [lra|]. left. apply (nth_mono _ edges_inc); [lia|]. rewrite B_len. lia.
  Qed.
  Lemma width_pos b : (b < B)%nat -> 0 < h_width h b.
  Proof. destruct OK as (_ & E & _). intros Hb. unfold h_width. specialize (E b Hb). lra. Qed.

  Lemma bin_unique b b' x : (b < B)%nat -> (b' < B)%nat -> in_bin h b x -> in_bin h b' x -> b = b'.
  Proof.
    intros Hb Hb' [A1 A2] [A3 A4]. destruct (Nat.lt_trichotomy b b') as [L|[E|L]]; [|assumption|].
    - pose proof (edge_mono (S b) b' L ltac:(lia)). lra.
    - pose proof (edge_mono (S b') b L ltac:(lia)). lra.
  Qed.
  Lemma bucket_bin b x : (b < B)%nat -> in_bin h b x -> bucketize (h_edges h) x = S b.
  Proof.
    intros Hb [H1 H2]. apply bucketize_bin; [apply edges_inc|rewrite B_len; lia|exact H1|]. intros _. exact H2.
  Qed.
  Lemma safe_bin b x : (b < B)%nat -> in_bin h b x -> bin_safe h x = b.
  Proof. intros Hb H. unfold bin_safe. rewrite (bucket_bin b x Hb H). fold B. lia. Qed.
  Lemma support_spec x : in_support h x = true <-> edge h 0 <= x < edge h B.
  Proof. unfold in_support. fold B. rewrite andb_true_iff, rle_spec, rlt_spec. tauto. Qed.
  Lemma in_bin_support b x : (b < B)%nat -> in_bin h b x -> in_support h x = true.
  Proof.
    intros Hb [H1 H2]. apply support_spec. pose proof (edge_mono 0 b ltac:(lia) ltac:(lia)).
    pose proof (edge_mono (S b) B ltac:(lia) ltac:(lia)). lra.
  Qed.
  Lemma support_bin x : in_support h x = true -> exists b, (b < B)%nat /\ in_bin h b x.
  Proof. rewrite support_spec. intros [H1 H2]. exact (find_bin (edge h) B x H1 H2). Qed.

  (** probabilities *)
  Lemma logits_sum : 0 < bsum B (fun j => pr (h_logits h j)).
  Proof.
    destruct OK as (_ & _ & _ & b & Hb & N).
    apply Rlt_le_trans with (pr (h_logits h b)).
    - destruct (h_logits h b); [congruence|]. apply exp_pos.
    - apply (bsum_term_le B (fun j => pr (h_logits h j)) b); [assumption|intros; apply pr_nonneg].
  Qed.
  Lemma probs_nonneg b : 0 <= h_probs h b.
  Proof. unfold h_probs. apply Rmult_le_pos; [apply pr_nonneg|]. left. apply Rinv_0_lt_compat. apply logits_sum. Qed.
  Lemma probs_sum : bsum B (h_probs h) = 1.
  Proof.
    unfold h_probs. fold B. pose proof logits_sum as P. unfold Rdiv. rewrite bsum_scal_r. apply Rinv_r. lra.
  Qed.
  Lemma probs_le1 b : (b < B)%nat -> h_probs h b <= 1.
  Proof. intros Hb. rewrite <- probs_sum. apply (bsum_term_le B (h_probs h) b); [assumption|intros; apply probs_nonneg]. Qed.

  Definition mw : R := rmaxn B (h_width h).
End H.

Lemma rmaxn_ge n g i : (i < n)%nat -> g i <= rmaxn n g.
Proof.
  revert i. induction n as [|n IH]; intros i Hi; [lia|]. cbn [rmaxn]. destruct (Nat.eqb_spec n 0) as [->|Hn].
  - replace i with 0%nat by lia. lra.
  - destruct (Nat.eq_dec i n) as [->|]; [apply Rmax_r|]. eapply Rle_trans; [apply IH; lia|apply Rmax_l].
Qed.
Lemma rmaxn_in n g : (0 < n)%nat -> exists i, (i < n)%nat /\ rmaxn n g = g i.
Proof.
  induction n as [|n IH]; intros Hn; [lia|]. cbn [rmaxn]. destruct (Nat.eqb_spec n 0) as [->|N].
  - exists 0%nat. split; [lia|reflexivity].
  - destruct (IH ltac:(lia)) as (i & Hi & E). unfold Rmax. destruct (Rle_dec _ _).
    + exists n. split; [lia|reflexivity].
    + exists i. split; [lia|assumption].
Qed.
Lemma rmaxn_greatest n g m : (0 < n)%nat -> (greatest n g m <-> m = rmaxn n g).
Proof.
  intros Hn. destruct (rmaxn_in n g Hn) as (i & Hi & E). split.
  - intros [H1 (j & Hj & ->)]. specialize (H1 i Hi). pose proof (rmaxn_ge n g j Hj). lra.
  - intros ->. split; [apply rmaxn_ge|eauto].
Qed.

Lemma pr_lmax a b : pr (lmax a b) = Rmax (pr a) (pr b).
Proof.
  destruct a as [|x], b as [|y]; cbn [lmax pr].
  - symmetry. apply Rmax_left. lra.
  - symmetry. apply Rmax_right. left. apply exp_pos.
  - symmetry. apply Rmax_left. left. apply exp_pos.
  - unfold Rmax. destruct (Rle_dec x y) as [H|H], (Rle_dec (exp x) (exp y)) as [K|K]; try reflexivity.
    + destruct H as [H|H]; [apply exp_increasing in H; lra|subst; lra].
    + exfalso. assert (y < x) as L by lra. apply exp_increasing in L. lra.
Qed.

Lemma is_RInt_zero c d : is_RInt (fun _ : R => 0) c d 0.
Proof.
  pose proof (is_RInt_const c d (0 : R)) as K. unfold scal in K; cbn in K; unfold mult in K; cbn in K.
  now rewrite Rmult_0_r in K.
Qed.

(** compactly supported integrands *)
Lemma sums_compact f l r u : l <= r -> (forall x, x < l \/ r < x -> f x = 0) -> is_RInt f l r u -> sums DReal f u.
Proof.
  intros Hlr H0 HI. cbn. intros P HP. exists (fun a => a < l) (fun b => r < b).
  - exists l. auto.
  - exists r. auto.
  - intros a b Ha Hb. exists u. split; [|exact (locally_singleton _ _ HP)]. cbn [fst snd].
    assert (forall c d, c <= d -> (d <= l \/ r <= c) -> is_RInt f c d 0) as Z.
    { intros c d Hcd K. apply (is_RInt_ext (fun _ => 0)).
      - intros x Hx. rewrite Rmin_left, Rmax_right in Hx by assumption. symmetry. apply H0. lra.
      - apply is_RInt_zero. }
    replace u with (plus 0 (plus u 0)) by (unfold plus; cbn; ring).
    apply (is_RInt_Chasles f a l b); [apply Z; lra|]. apply (is_RInt_Chasles f l r b); [assumption|apply Z; lra].
Qed.

Lemma uniform_dens l r x : l < r -> pr (fam_lp (FUniform l r) x) = if binb (mkHist [l; r] (fun _ => NInf) 0) 0 x then / (r - l) else 0.
Proof.
  intros H. unfold fam_lp, binb, edge. cbn [supp lp_formula h_edges nth]. unfold rle, rlt.
  destruct (Rle_dec l x); cbn [andb].
  - destruct (Rle_dec x r); cbn [andb].
    + destruct (Rlt_dec x r).
      * cbn [pr]. rewrite exp_Ropp, exp_ln; lra.
      * reflexivity.
    + destruct (Rlt_dec x r); [lra|reflexivity].
  - reflexivity.
Qed.

Section H2.
  Variable h : hist.
  Hypothesis OK : hist_ok h.
  Let B := nbins h.

  Lemma mw_pos : 0 < mw h.
  Proof. unfold mw. destruct (rmaxn_in (nbins h) (h_width h) (B_pos h OK)) as (i & Hi & ->). now apply width_pos. Qed.

  Definition dens (b : nat) : R := Rmax (h_probs h b / h_width h b) (h_minp h / mw h).

  Lemma pr_in_bin b x : (b < B)%nat -> in_bin h b x -> pr (h_log_prob h x) = dens b.
  Proof.
    intros Hb Hx. unfold h_log_prob. rewrite (in_bin_support h OK b x Hb Hx), (safe_bin h OK b x Hb Hx).
    rewrite pr_lmax, !pr_ladd, !pr_lfrom; [|apply OK|now apply probs_nonneg]. cbn [pr]. rewrite !exp_Ropp.
    fold (mw h). rewrite exp_ln by now apply width_pos. rewrite exp_ln by apply mw_pos. reflexivity.
  Qed.
  Lemma out_of_bins x : (x < edge h 0 \/ edge h B <= x) -> h_log_prob h x = NInf.
  Proof.
    intros H. unfold h_log_prob. destruct (in_support h x) eqn:E; [|reflexivity]. apply (support_spec h) in E. unfold B in H. lra.
  Qed.

  Lemma binb_spec b x : binb h b x = true <-> in_bin h b x.
  Proof.
    unfold binb, in_bin. destruct (Rle_dec _ _); [|split; intros; [discriminate|lra]].
    destruct (Rlt_dec _ _); split; intros; auto; try discriminate; lra.
  Qed.

  (** the density is a finite mixture of uniform pieces *)
  Lemma dens_mix x : pr (h_log_prob h x) = bsum B (fun b => dens b * (if binb h b x then 1 else 0)).
  Proof.
    destruct (in_support h x) eqn:E.
    - destruct (support_bin h x E) as (b & Hb & Hx). rewrite (pr_in_bin b x Hb Hx).
      rewrite (bsum_single B _ b Hb).
      + rewrite (proj2 (binb_spec b x) Hx). ring.
      + intros j Hj N. destruct (binb h j x) eqn:EJ; [|ring]. apply binb_spec in EJ. exfalso. apply N.
        exact (bin_unique h OK j b x Hj Hb EJ Hx).
    - assert (x < edge h 0 \/ edge h B <= x) as O.
      { destruct (Rlt_le_dec x (edge h 0)); [now left|right]. destruct (Rlt_le_dec x (edge h B)); [|assumption].
        assert (in_support h x = true) by (apply (support_spec h); auto). congruence. }
      rewrite (out_of_bins x O). symmetry. apply bsum_zero. intros b Hb. destruct (binb h b x) eqn:EJ; [|ring].
      apply binb_spec in EJ. rewrite (in_bin_support h OK b x Hb EJ) in E. discriminate.
  Qed.

  Lemma piece b (phi : R -> R) I : (b < B)%nat -> is_RInt phi (edge h b) (edge h (S b)) I ->
    sums DReal (fun x => (if binb h b x then 1 else 0) * phi x) I.
  Proof.
    intros Hb HI. pose proof (width_pos h OK b Hb) as W. unfold h_width in W.
    apply (sums_compact _ (edge h b) (edge h (S b))); [lra| |].
    - intros x Hx. destruct (binb h b x) eqn:E; [|ring]. apply binb_spec in E. unfold in_bin in E. lra.
    - apply (is_RInt_ext phi); [|assumption]. intros x Hx. rewrite Rmin_left, Rmax_right in Hx by lra.
      rewrite (proj2 (binb_spec b x)); [symmetry; apply Rmult_1_l|]. unfold in_bin. lra.
  Qed.

  Lemma zero_sums : sums DReal (fun _ => 0) 0.
  Proof.
    apply (sums_compact _ 0 0); [lra|reflexivity|]. apply is_RInt_zero.
  Qed.

  Lemma dens_integral phi I : (forall b, (b < B)%nat -> is_RInt phi (edge h b) (edge h (S b)) (I b)) ->
    sums DReal (fun x => pr (h_log_prob h x) * phi x) (bsum B (fun b => dens b * I b)).
  Proof.
    intros H. apply sums_ext with (f := fun x => bsum B (fun b => dens b * ((if binb h b x then 1 else 0) * phi x))).
    - intros x. rewrite dens_mix. rewrite <- bsum_scal_r. apply bsum_ext. intros b Hb. ring.
    - apply (sums_bsum DReal B _ _ (fun _ => 0) 0 zero_sums). intros b Hb. apply sums_scal. now apply piece, H.
  Qed.

  Lemma one_integral b : is_RInt (fun _ => 1) (edge h b) (edge h (S b)) (h_width h b).
  Proof.
    pose proof (is_RInt_const (edge h b) (edge h (S b)) (1 : R)) as K. unfold scal in K; cbn in K; unfold mult in K; cbn in K.
    now rewrite Rmult_1_r in K.
  Qed.

  Definition hmass : R := bsum B (fun b => Rmax (h_probs h b) (h_minp h * (h_width h b / mw h))).
  Lemma mass_sums : sums DReal (fun x => pr (h_log_prob h x)) hmass.
  Proof.
    pose proof (dens_integral (fun _ => 1) (h_width h) (fun b _ => one_integral b)) as K.
    replace hmass with (bsum B (fun b => dens b * h_width h b)).
    - refine (sums_ext _ _ _ _ _ K). intros; cbv beta; ring.
    - apply bsum_ext. intros b Hb. unfold dens. pose proof (width_pos h OK b Hb) as W. pose proof mw_pos as M.
      rewrite Rmult_comm, <- RmaxRmult by lra. f_equal; field; lra.
  Qed.
End H2.
