(** Properties C33, C99-C103: Histogram leaves. *)
From Coq Require Import List Arith ZArith Bool Reals Lra Lia.
From Coquelicot Require Import Coquelicot.
From Verif Require Import Base ScopeModel CircuitModel CircuitEval Integral CircuitMarg LeafModel LeafProofs LeafTop SampleModel SampleSpec CtxModel CtxProofs MleModel IvProofs HistModel HistSpec HistProofs HistTop HistFit HistEdges.
Import ListNotations.
Local Open Scope R_scope.

(** C33: construction accepts exactly strictly increasing edges with one
    parameter per bin, and gives the requested (renormalised) bin probabilities. *)
Theorem C33_accepts : forall n es K lg mp h, mk_hist_logits n es K lg mp = Ok h <->
  n = 1%nat /\ (2 <= length es)%nat /\ (forall b, (S b < length es)%nat -> nth b es 0 < nth (S b) es 0) /\
  K = (length es - 1)%nat /\ h = mkHist es (fun b => Fin (lg b)) mp.
Proof. exact mk_hist_logits_spec. Qed.
Print Assumptions C33_accepts.
Theorem C33_probs : forall n es K p mp h, mk_hist_probs n es K p mp = Ok h -> 0 <= mp ->
  (forall b, (b < K)%nat -> 0 <= p b) -> 0 < bsum K p -> hist_ok h /\ forall b, (b < K)%nat -> h_probs h b = p b / bsum K p.
Proof. exact mk_hist_probs_spec. Qed.
Print Assumptions C33_probs.

(** The log-likelihood is that of the piecewise constant density: bin probability
    over bin width, floored at min_prob over the greatest width. *)
Theorem C33_density : forall h b x w, hist_ok h -> (b < nbins h)%nat -> in_bin h b x ->
  greatest (nbins h) (fun i => edge h (S i) - edge h i) w ->
  pr (h_log_prob h x) = Rmax (h_probs h b / (edge h (S b) - edge h b)) (h_minp h / w).
Proof.
  intros h b x w OK Hb Hx Hw. apply (mw_greatest h OK) in Hw. subst w. exact (pr_in_bin h OK b x Hb Hx).
Qed.
Print Assumptions C33_density.
Theorem C33_outside : forall h x, (x < edge h 0 \/ edge h (nbins h) <= x) -> h_log_prob h x = NInf.
Proof. exact out_of_bins. Qed.
Print Assumptions C33_outside.

(** It integrates to one exactly when no bin is floored, and in any case to a
    number between 1 and 1 + nbins * min_prob. *)
Theorem C33_normalised : forall h, hist_ok h -> (sums DReal (fun x => pr (h_log_prob h x)) 1 <-> clamp_free h).
Proof. exact normalised_iff. Qed.
Print Assumptions C33_normalised.
Theorem C33_mass : forall h, hist_ok h ->
  exists u, sums DReal (fun x => pr (h_log_prob h x)) u /\ 1 <= u <= 1 + INR (nbins h) * h_minp h.
Proof. intros h OK. exact (ex_intro _ _ (conj (mass_sums h OK) (mass_bounds h OK))). Qed.
Print Assumptions C33_mass.
(** Hence circuits over histogram leaves are covered by the theorems on circuits. *)
Theorem C33_leaf : forall v C P hs, (forall c r, (c < C)%nat -> (r < P)%nat -> hist_ok (hs c r) /\ clamp_free (hs c r)) ->
  leaf_norm (fun _ => DReal) (h_leaf v C P hs).
Proof. exact h_leaf_norm. Qed.
Print Assumptions C33_leaf.

(** The mode is the midpoint of a bin of greatest probability; with bins of equal
    width no point has a greater density. *)
Theorem C33_mode : forall h, hist_ok h -> exists b, (b < nbins h)%nat /\ in_bin h b (h_mode h) /\
  h_mode h = (edge h b + edge h (S b)) / 2 /\ forall j, (j < nbins h)%nat -> h_probs h j <= h_probs h b.
Proof. intros h OK. exact (ex_intro _ (mbin h) (conj (mbin_lt h OK) (mode_bin h OK))). Qed.
Print Assumptions C33_mode.
Theorem C33_mode_density : forall h w, hist_ok h -> (forall b, (b < nbins h)%nat -> edge h (S b) - edge h b = w) ->
  forall x, pr (h_log_prob h x) <= pr (h_log_prob h (h_mode h)).
Proof. exact (fun h w OK => mode_density h OK w). Qed.
Print Assumptions C33_mode_density.

(** Samples follow the density: every function integrable over the bins has the
    same expectation under sampling and under the density. *)
Theorem C33_sampling : forall h phi I, hist_ok h -> clamp_free h ->
  (forall b, (b < nbins h)%nat -> is_RInt phi (edge h b) (edge h (S b)) (I b)) ->
  exists u, expects (fun _ => DReal) (h_sample h) phi u /\ sums DReal (fun x => pr (h_log_prob h x) * phi x) u.
Proof. exact (fun h phi I OK => sample_follows h OK phi I). Qed.
Print Assumptions C33_sampling.

(** Fitting raises on samples outside the support; otherwise the new bin
    probabilities are the relative frequencies, up to min_prob ... *)
Theorem C33_fit_raises : forall h l, (exists p, In p l /\ ~ (edge h 0 <= snd p < edge h (nbins h))) -> h_fit h l = Err.
Proof. exact fit_raises. Qed.
Print Assumptions C33_fit_raises.
Theorem C33_fit : forall h l, hist_ok h -> within h l -> 0 < total l -> h_minp h <= total l -> h_minp h <= 1 ->
  exists h', h_fit h l = Ok h' /\ forall b, (b < nbins h)%nat ->
    freq h l b / (1 + INR (nbins h) * h_minp h) ^ 2 <= h_probs h' b <= Rmax (freq h l b) (h_minp h).
Proof. exact (fun h l OK => fit_bounds h OK l). Qed.
Print Assumptions C33_fit.
(** ... exactly the relative frequencies when none is below min_prob, and then the
    likelihood is maximal among the normalised histograms on these edges. *)
Theorem C33_fit_exact : forall h l, hist_ok h -> within h l -> 0 < total l -> h_minp h <= total l -> h_minp h <= 1 ->
  (forall b, (b < nbins h)%nat -> h_minp h <= freq h l b) ->
  exists h', h_fit h l = Ok h' /\ h_edges h' = h_edges h /\ h_minp h' = h_minp h /\ hist_ok h' /\
    forall b, (b < nbins h)%nat -> h_probs h' b = freq h l b.
Proof. exact (fun h l OK => fit_exact h OK l). Qed.
Print Assumptions C33_fit_exact.
Theorem C33_fit_maximises : forall h l, hist_ok h -> within h l -> 0 < total l -> 0 < h_minp h -> h_minp h <= total l ->
  (forall b, (b < nbins h)%nat -> h_minp h <= freq h l b) ->
  exists h', h_fit h l = Ok h' /\ hist_ok h' /\ clamp_free h' /\
    forall h2, hist_ok h2 -> h_edges h2 = h_edges h -> clamp_free h2 -> (forall b, (b < nbins h)%nat -> 0 < h_probs h2 b) ->
      lsumR (map (fun p => fst p * ln (pr (h_log_prob h2 (snd p)))) l) <=
      lsumR (map (fun p => fst p * ln (pr (h_log_prob h' (snd p)))) l).
Proof. exact (fun h l OK => fit_maximises h OK l). Qed.
Print Assumptions C33_fit_maximises.

(** Assigning probs accepts exactly non-negative values and renormalises them. *)
Theorem C33_set_probs : forall h p, hist_ok h ->
  ((exists h', set_probs h p = Ok h') <-> (forall b, (b < nbins h)%nat -> 0 <= p b)) /\
  forall h', set_probs h p = Ok h' -> 0 < bsum (nbins h) p -> h_minp h <= bsum (nbins h) p ->
    (forall b, (b < nbins h)%nat -> h_minp h <= p b / bsum (nbins h) p) ->
    h_edges h' = h_edges h /\ h_minp h' = h_minp h /\ forall b, (b < nbins h)%nat -> h_probs h' b = p b / bsum (nbins h) p.
Proof. intros h p OK. exact (conj (set_probs_spec h p) (set_probs_exact h OK p)). Qed.
Print Assumptions C33_set_probs.

(** Three bins of unequal width. *)
Definition exH : hist := mkHist [0; 1; 3; 4] (fun b => match b with 0%nat => lfrom (1/2) | 1%nat => lfrom (1/4) | _ => lfrom (1/4) end) (1/10).
Lemma exH_probs b : (b < 3)%nat -> h_probs exH b = match b with 0%nat => 1/2 | 1%nat => 1/4 | _ => 1/4 end.
Proof.
  intros Hb. unfold h_probs. change (nbins exH) with 3%nat. cbn [bsum h_logits exH]. rewrite !pr_lfrom by lra.
  destruct b as [|[|[|b]]]; [| | |lia]; cbn [h_logits exH]; rewrite pr_lfrom by lra; field.
Qed.
Lemma exH_ok : hist_ok exH.
Proof.
  split; [cbn; lia|]. split.
  - change (nbins exH) with 3%nat. intros [|[|[|b]]] Hb; [| | |lia]; unfold edge; cbn; lra.
  - split; [cbn; lra|]. exists 0%nat. split; [cbn; lia|]. cbn. unfold lfrom. destruct (Rlt_dec 0 (1/2)); [discriminate|lra].
Qed.
Lemma exH_width w : greatest (nbins exH) (fun i => edge exH (S i) - edge exH i) w -> w = 2.
Proof.
  intros [H1 (i & Hi & ->)]. change (nbins exH) with 3%nat in *. specialize (H1 1%nat ltac:(lia)). unfold edge in *.
  destruct i as [|[|[|i]]]; [| | |lia]; cbn in *; lra.
Qed.
Example C33_nonvacuous : hist_ok exH /\ clamp_free exH /\ in_bin exH 1 (5/2) /\ pr (h_log_prob exH (5/2)) = 1/8 /\
  (let l := [(1, 1/2); (1, 2); (2, 7/2)] in within exH l /\ 0 < total l /\ h_minp exH <= total l /\
     forall b, (b < nbins exH)%nat -> h_minp exH <= freq exH l b).
Proof.
  assert (clamp_free exH) as C.
  { intros b w Hb Hw. apply exH_width in Hw. subst w. rewrite (exH_probs b Hb). change (nbins exH) with 3%nat in Hb.
    destruct b as [|[|[|b]]]; [| | |lia]; unfold edge; cbn; lra. }
  split; [exact exH_ok|]. split; [exact C|]. split; [unfold in_bin, edge; cbn; lra|]. split.
  - assert (greatest (nbins exH) (fun i => edge exH (S i) - edge exH i) 2) as G.
    { split; [|exists 1%nat; split; [cbn; lia|unfold edge; cbn; lra]].
      change (nbins exH) with 3%nat. intros [|[|[|b]]] Hb; [| | |lia]; unfold edge; cbn; lra. }
    rewrite (C33_density exH 1 (5/2) 2 exH_ok ltac:(cbn; lia) ltac:(unfold in_bin, edge; cbn; lra) G).
    rewrite exH_probs by lia. unfold edge. cbn. rewrite Rmax_left; lra.
  - split.
    + intros p [<-|[<-|[<-|[]]]]; unfold edge; cbn; lra.
    + unfold total, freq, weight_in, total. cbn [map fst lsumR]. split; [lra|]. split; [cbn; lra|].
      change (nbins exH) with 3%nat. intros b Hb. destruct b as [|[|[|b]]]; [| | |lia]; cbn [filter]; unfold binb, edge; cbn [nth exH h_edges snd];
        repeat (match goal with |- context [Rle_dec ?a ?b] => destruct (Rle_dec a b); try lra | |- context [Rlt_dec ?a ?b] => destruct (Rlt_dec a b); try lra end);
        cbn; lra.
Qed.

(** C99 (refuted): "mpe returns a point of maximal density". *)
Theorem C99_mode_refuted : exists h x, hist_ok h /\ clamp_free h /\ pr (h_log_prob h (h_mode h)) < pr (h_log_prob h x).
Proof.
  set (h := mkHist [0; 1; 10] (fun b => match b with 0%nat => lfrom (2/5) | _ => lfrom (3/5) end) 0).
  assert (forall b, (b < 2)%nat -> h_probs h b = match b with 0%nat => 2/5 | _ => 3/5 end) as HP.
  { intros b Hb. unfold h_probs. change (nbins h) with 2%nat. cbn [bsum h_logits h]. rewrite !pr_lfrom by lra.
    destruct b as [|[|b]]; [| |lia]; cbn [h_logits h]; rewrite pr_lfrom by lra; field. }
  assert (hist_ok h) as OK.
  { split; [cbn; lia|]. split.
    - change (nbins h) with 2%nat. intros [|[|b]] Hb; [| |lia]; unfold edge; cbn; lra.
    - split; [cbn; lra|]. exists 0%nat. split; [cbn; lia|]. cbn. unfold lfrom. destruct (Rlt_dec 0 (2/5)); [discriminate|lra]. }
  assert (clamp_free h) as C.
  { intros b w Hb [_ (i & Hi & ->)]. change (nbins h) with 2%nat in *. cbn [h_minp h]. unfold Rdiv at 1. rewrite Rmult_0_l.
    apply Rmult_le_pos; [now apply probs_nonneg|]. left. apply Rinv_0_lt_compat. apply (width_pos h OK b Hb). }
  exists h, (1/2). split; [exact OK|]. split; [exact C|].
  assert (mbin h = 1%nat) as MB.
  { unfold mbin. change (nbins h) with 2%nat. cbn [rargmax Nat.eqb]. rewrite (HP 0%nat), (HP 1%nat) by lia. destruct (Rlt_dec _ _); [reflexivity|lra]. }
  destruct (mode_bin h OK) as (M1 & _ & _). rewrite MB in M1.
  rewrite (pr_in_bin h OK 1 _ ltac:(cbn; lia) M1), (pr_in_bin h OK 0 (1/2) ltac:(cbn; lia)) by (unfold in_bin, edge; cbn; lra).
  rewrite !(dens_free h OK) by (assumption || (cbn; lia)). rewrite (HP 0%nat), (HP 1%nat) by lia. unfold h_width, edge. cbn. lra.
Qed.
Print Assumptions C99_mode_refuted.

(** C100 (refuted): "every histogram leaf integrates to one": floored bins are not
    compensated. *)
Theorem C100_mass_refuted : exists h u, hist_ok h /\ sums DReal (fun x => pr (h_log_prob h x)) u /\ 1 < u.
Proof.
  set (h := mkHist [0; 1; 2] (fun b => match b with 0%nat => Fin 0 | _ => NInf end) (/ 10 ^ 12)).
  assert (hist_ok h) as OK.
  { split; [cbn; lia|]. split.
    - change (nbins h) with 2%nat. intros [|[|b]] Hb; [| |lia]; unfold edge; cbn; lra.
    - split; [cbn; lra|]. exists 0%nat. split; [cbn; lia|]. discriminate. }
  exists h, (hmass h). split; [exact OK|]. split; [now apply mass_sums|].
  destruct (mass_bounds h OK) as [[H|H] _]; [exact H|exfalso]. symmetry in H. apply (mass_one_iff h OK) in H.
  specialize (H 1%nat 1 ltac:(cbn; lia)).
  assert (greatest (nbins h) (fun i => edge h (S i) - edge h i) 1) as G.
  { split; [|exists 1%nat; split; [cbn; lia|unfold edge; cbn; lra]].
    change (nbins h) with 2%nat. intros [|[|b]] Hb; [| |lia]; unfold edge; cbn; lra. }
  specialize (H G). unfold h_probs in H. cbn [h_logits h pr h_minp] in H. unfold Rdiv in H. rewrite !Rmult_0_l in H.
  assert (0 < / 10 ^ 12) by (apply Rinv_0_lt_compat, pow_lt; lra). lra.
Qed.
Print Assumptions C100_mass_refuted.

(** C101 (refuted): "marginalising other variables leaves a histogram leaf's
    likelihoods unchanged": min_prob falls back to its default. *)
Theorem C101_marginalize_refuted : exists h x, hist_ok h /\ pr (h_log_prob (h_marginalize h) x) < pr (h_log_prob h x).
Proof.
  set (h := mkHist [0; 1; 2] (fun b => match b with 0%nat => Fin 0 | _ => NInf end) (1/2)).
  assert (forall mp, 0 <= mp -> hist_ok (mkHist [0; 1; 2] (fun b => match b with 0%nat => Fin 0 | _ => NInf end) mp)) as OK.
  { intros mp Hm. split; [cbn; lia|]. split.
    - unfold nbins, edge. cbn [h_edges length Nat.sub]. intros [|[|b]] Hb; [| |lia]; cbn; lra.
    - split; [cbn; lra|]. exists 0%nat. split; [cbn; lia|]. discriminate. }
  assert (forall mp, 0 <= mp -> pr (h_log_prob (mkHist [0; 1; 2] (fun b => match b with 0%nat => Fin 0 | _ => NInf end) mp) (3/2)) = mp) as E.
  { intros mp Hm. rewrite (C33_density _ 1 (3/2) 1 (OK mp Hm) ltac:(cbn; lia)).
    - unfold h_probs, edge. cbn. replace (0 / (0 + 1 + 0)) with 0 by (field; lra). unfold Rdiv. rewrite exp_0. rewrite Rmax_right; [lra|]. lra.
    - unfold in_bin, edge. cbn. lra.
    - split; [|exists 1%nat; split; [cbn; lia|unfold edge; cbn; lra]].
      unfold nbins, edge. cbn [h_edges length Nat.sub]. intros [|[|b]] Hb; [| |lia]; cbn; lra. }
  exists h, (3/2). split; [apply OK; lra|]. unfold h_marginalize. cbn [h h_edges h_logits].
  assert (0 < default_min_prob < 1/2) as D.
  { unfold default_min_prob. split; [apply Rinv_0_lt_compat, pow_lt; lra|]. replace (1/2) with (/ 2) by lra.
    apply Rinv_lt_contravar; [apply Rmult_lt_0_compat; [lra|apply pow_lt; lra]|]. apply Rlt_le_trans with (10 ^ 1); [lra|]. apply Rle_pow; [lra|lia]. }
  unfold h. rewrite !E by lra. lra.
Qed.
Print Assumptions C101_marginalize_refuted.

(** C102: automatic bin edges cover the data with bins of equal width, and the
    constructor accepts them. *)
Theorem C102_auto_edges : forall l rb es, bin_edges l rb = Ok es ->
  (exists a b n, (1 <= n)%nat /\ a < b /\ length es = S n /\ nth 0 es 0 = a /\ nth n es 0 = b /\
    (forall k, (k < n)%nat -> nth (S k) es 0 - nth k es 0 = (b - a) / INR n) /\
    (rb = None -> forall x, In x l -> a <= x <= b)) /\
  forall K lg mp, K = (length es - 1)%nat -> exists h, mk_hist_logits 1 es K lg mp = Ok h.
Proof.
  intros l rb es H. split; [|intros K lg mp E; exact (bin_edges_accepted l rb es K lg mp H E)].
  destruct (bin_edges_spec l rb es H) as (a & b & n & H1 & H2 & H3 & H4 & H5 & H6 & H7). exists a, b, n.
  destruct (outer_spec l rb a b H3) as (_ & K & _). repeat (split; [assumption|]). exact K.
Qed.
Print Assumptions C102_auto_edges.
Example C102_nonvacuous : exists es, bin_edges [1; 2; 5] None = Ok es.
Proof.
  unfold bin_edges, outer_edges. cbn [fst snd]. destruct (Req_EM_T _ _); eexists; reflexivity.
Qed.

(** C103 (refuted): "a Histogram leaf on automatic bin edges can be fitted to the
    data the edges were computed from": for every data set with two different
    values it raises, since the greatest value is the last, excluded, edge. *)
Theorem C103_auto_fit_refuted : forall l es lg mp h, (exists x y, In x l /\ In y l /\ x <> y) -> bin_edges l None = Ok es ->
  mk_hist_logits 1 es (length es - 1) lg mp = Ok h -> h_fit h (map (fun x => (1, x)) l) = Err /\ h_log_prob h (lmaxR l) = NInf.
Proof. exact auto_fit_raises. Qed.
Print Assumptions C103_auto_fit_refuted.
