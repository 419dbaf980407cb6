(** Continuous mixtures with factorised components: the returned model is the
    trained density; early stopping. *)
From Coq Require Import List Arith ZArith Bool Reals Lia Lra Permutation.
From Verif Require Import Base ScopeModel ScopeProofs CircuitModel CircuitSpec CircuitBasics CircuitEval Integral CircuitMarg CircuitProps MargProofs
  LeafModel LeafSpec LeafProofs LeafNorm LeafTop LearnProofs CmsModel CmsSpec CmsProofs.
Import ListNotations.
Local Open Scope R_scope.

(** *** cells *)
Lemma exp_softplus x : exp (softplus x) = 1 + exp x.
Proof. unfold softplus. apply exp_ln. assert (0 < exp x) by apply exp_pos. lra. Qed.
Lemma softplus_pos x : 0 < softplus x.
Proof. unfold softplus. rewrite <- ln_1. apply ln_increasing; [lra|]. assert (0 < exp x) by apply exp_pos. lra. Qed.
Lemma softplus_neg x : softplus x - softplus (- x) = x.
Proof.
  apply exp_inv. unfold Rminus. rewrite exp_plus, exp_Ropp, !exp_softplus, exp_Ropp. assert (0 < exp x) by apply exp_pos. field. lra.
Qed.

Lemma bern01 a : (match asnat a with Some k => Nat.leb k 1 | None => false end) = true <-> a = 0 \/ a = 1.
Proof.
  split.
  - destruct (asnat a) as [k|] eqn:E; [|discriminate]. intros H. apply Nat.leb_le in H. rewrite (asnat_Some _ _ E).
    destruct k as [|[|k]]; [left|right|lia]; reflexivity.
  - intros [-> | ->]; [rewrite asnat_0|rewrite asnat_1]; reflexivity.
Qed.

Lemma cell_valid_spec fm o : cell_valid fm o = true <-> admissible fm o.
Proof.
  unfold cell_valid, admissible. destruct o as [a|]; [|tauto]. destruct fm as [|[K|]|eps]; try tauto.
  - apply bern01.
  - split.
    + destruct (asnat a) as [k|] eqn:E; [|discriminate]. intros H. apply Nat.ltb_lt in H. exists k. split; [exact H|]. now apply asnat_Some.
    + intros (k & Hk & ->). rewrite asnat_INR. now apply Nat.ltb_lt.
  - split; [discriminate|tauto].
Qed.
Lemma family_valid_spec fm : family_ok fm -> family_valid fm = true.
Proof. destruct fm as [|[K|]|eps]; cbn [family_ok family_valid]; try reflexivity; [intros H; apply Nat.leb_le; exact H|intros []]. Qed.

Lemma Rsqr_scale a m s : s <> 0 -> - (1 / 2) * ((a - m) / s * ((a - m) / s)) = - (a - m) ^ 2 / (2 * s ^ 2).
Proof. intros H. field. exact H. Qed.

(** the training score of an admissible cell is the log of its probability, and is
    the score of the compiled leaf *)
Lemma cell_ll_prob fm F out f o : family_ok fm -> admissible fm o ->
  exp (cell_ll fm F out f o) = cell_prob fm F out f o /\ feat_prob fm F out f o = cell_prob fm F out f o.
Proof.
  intros OK A. destruct o as [a|]; [|cbn; now rewrite exp_0]. cbn [cell_ll cell_prob feat_prob]. destruct fm as [|[K|]|eps]; cbn [admissible family_ok fam_of] in *.
  - unfold fam_lp, supp, lp_formula. unfold sigmoid. assert (0 < exp (out f)) as P by apply exp_pos.
    assert (exp (- out f) = / exp (out f)) as EN by apply exp_Ropp.
    destruct A as [-> | ->].
    + destruct (Req_EM_T 0 1); [lra|]. rewrite asnat_0. cbn [Nat.ltb Nat.leb pr]. split.
      * replace (0 * - softplus (- out f) + (1 - 0) * - softplus (out f)) with (- softplus (out f)) by ring.
        rewrite (exp_Ropp (softplus _)), exp_softplus, EN. field. lra.
      * replace (0 * out f - softplus (out f)) with (- softplus (out f)) by ring. change (0 <? 2)%nat with true. cbn [pr]. rewrite (exp_Ropp (softplus _)), exp_softplus, EN. field. lra.
    + destruct (Req_EM_T 1 1); [|lra]. rewrite asnat_1. cbn [Nat.ltb Nat.leb pr]. split.
      * replace (1 * - softplus (- out f) + (1 - 1) * - softplus (out f)) with (- softplus (- out f)) by ring.
        rewrite (exp_Ropp (softplus _)), exp_softplus. unfold Rdiv. ring.
      * change (1 <? 2)%nat with true. cbn [pr]. replace (1 * out f - softplus (out f)) with (- softplus (- out f)) by (pose proof (softplus_neg (out f)); lra).
        rewrite (exp_Ropp (softplus _)), exp_softplus. unfold Rdiv. ring.
  - destruct A as (k & Hk & ->). unfold fam_lp, supp, lp_formula. rewrite asnat_INR. destruct (Nat.ltb_spec k K); [|lia]. cbn [pr].
    assert (Z.to_nat (Int_part (INR k)) = k) as ->.
    { pose proof (asnat_INR k) as E. unfold asnat in E. destruct (Req_EM_T _ _) in E; [|discriminate]. congruence. }
    assert (exp (log_softmax K (fun k0 => out (f * K + k0)%nat) k) = exp (out (f * K + k)%nat) / bsum K (fun j => exp (out (f * K + j)%nat))) as E.
    { unfold log_softmax, Rminus. rewrite exp_plus, exp_Ropp, exp_ln; [reflexivity|]. apply bsum_pos; [lia|]. intros. apply exp_pos. }
    split; exact E.
  - contradiction.
  - fold (softplus (out (F + f)%nat)). set (s := softplus (out (F + f)%nat) + eps).
    assert (0 < s) as SP by (unfold s; pose proof (softplus_pos (out (F + f)%nat)); lra).
    assert (0 < 2 * PI) as TP by (pose proof PI_RGT_0; lra).
    assert (0 < sqrt (2 * PI)) as QP by now apply sqrt_lt_R0.
    assert (ln (2 * PI) = 2 * ln (sqrt (2 * PI))) as LQ.
    { rewrite <- (sqrt_sqrt (2 * PI)) at 1 by lra. rewrite ln_mult by assumption. ring. }
    cbv zeta. split.
    + replace (- (1 / 2) * ((a - out f) / s * ((a - out f) / s) + 2 * ln s + ln (2 * PI)))
        with (- (a - out f) ^ 2 / (2 * s ^ 2) + - ln s + - ln (sqrt (2 * PI))).
      2:{ rewrite LQ, <- Rsqr_scale by lra. field. lra. }
      rewrite !exp_plus, !exp_Ropp, !exp_ln by assumption. unfold Rdiv. rewrite (Rinv_mult s). ring.
    + unfold fam_lp, supp, lp_formula. cbn [pr]. rewrite !(exp_ln s) by assumption.
      unfold Rminus. rewrite !exp_plus, !exp_Ropp, !exp_ln by assumption. unfold Rdiv. rewrite (Rinv_mult s). ring.
Qed.

Lemma exp_bsum n g : exp (bsum n g) = bprod n (fun i => exp (g i)).
Proof. induction n as [|n IH]; cbn [bsum bprod]; [apply exp_0|]. now rewrite exp_plus, IH. Qed.

Lemma eps30 : 0 < / 10 ^ 30.
Proof. apply Rinv_0_lt_compat, pow_lt. lra. Qed.
Lemma weights_facts n w : weights_ok n w -> (forall i, (i < n)%nat -> 0 < w i) /\ Rabs (bsum n w - 1) <= / 10 ^ 6 /\ (1 <= n)%nat.
Proof.
  intros [P S]. split; [|split].
  - intros i Hi. pose proof (P i Hi). pose proof eps30. lra.
  - rewrite S. replace (1 - 1) with 0 by ring. rewrite Rabs_R0. apply Rlt_le, Rinv_0_lt_compat, pow_lt. lra.
  - destruct n; [cbn in S; lra|lia].
Qed.

(** what training evaluates *)
Lemma component_ll_ok fm F out rows : family_ok fm -> (forall x f, In x rows -> (f < F)%nat -> admissible fm (x f)) ->
  component_ll fm F out rows = Ok (map (fun x i => bsum F (fun f => cell_ll fm F (out i) f (x f))) rows).
Proof.
  intros OK A. unfold component_ll. rewrite family_valid_spec by assumption. cbn [negb].
  assert (forallb (fun x => allb F (fun f => cell_valid fm (x f))) rows = true) as ->; [|reflexivity].
  apply forallb_forall. intros x Hx. apply allb_true. intros f Hf. now apply cell_valid_spec, A.
Qed.
Lemma component_ll_inv fm F out rows ls : component_ll fm F out rows = Ok ls ->
  family_valid fm = true /\ (forall x f, In x rows -> (f < F)%nat -> admissible fm (x f)) /\
  ls = map (fun x i => bsum F (fun f => cell_ll fm F (out i) f (x f))) rows.
Proof.
  unfold component_ll. destruct (family_valid fm); cbn [negb]; [|discriminate].
  match goal with |- context [forallb ?p rows] => destruct (forallb p rows) eqn:E end; cbn [negb]; [|discriminate]. intros H. injection H as <-. split; [reflexivity|]. split; [|reflexivity].
  intros x f Hx Hf. rewrite forallb_forall in E. specialize (E x Hx). rewrite allb_true in E. now apply cell_valid_spec, E.
Qed.
Lemma mixture_ll_density fm F n out w x : family_ok fm -> weights_ok n w -> (forall f, (f < F)%nat -> admissible fm (x f)) ->
  pr (mixture_ll n w (fun i => bsum F (fun f => cell_ll fm F (out i) f (x f)))) = density fm F n out w x.
Proof.
  intros OK W A. unfold mixture_ll, density. rewrite pr_lse. apply bsum_ext. intros i Hi. cbn [pr]. rewrite exp_plus, exp_bsum.
  rewrite Rmax_left by now apply W. rewrite exp_ln by (apply (proj1 (weights_facts n w W)); exact Hi). f_equal.
  apply bprod_ext. intros f Hf. now apply cell_ll_prob, A.
Qed.
Lemma compiled_density mode fm F n out w m x : family_ok fm -> (1 <= F)%nat -> weights_ok n w ->
  compile_factorized mode fm F n out w = Ok m -> (forall f, (f < F)%nat -> admissible fm (x f)) ->
  prob m x 0 0 0 = density fm F n out w x.
Proof.
  intros OK HF W E A. destruct (weights_facts n w W) as (WP & WS & Hn).
  assert (NC : fm <> Catg None) by (intros ->; exact OK).
  destruct (compile_ok mode fm F n out w NC HF Hn WP WS) as (m' & E' & _ & _ & _ & _ & _ & _ & _ & P). rewrite E in E'. injection E' as <-.
  rewrite P. destruct W as [_ ->]. unfold density. apply bsum_ext. intros i Hi. unfold Rdiv. rewrite Rinv_1, Rmult_1_r. f_equal.
  apply bprod_ext. intros f Hf. now apply cell_ll_prob, A.
Qed.

Lemma compiled_is_trained mode fm F n out w m rows ls : family_ok fm -> (1 <= F)%nat -> weights_ok n w ->
  compile_factorized mode fm F n out w = Ok m -> component_ll fm F out rows = Ok ls ->
  length ls = length rows /\
  forall b x cl, nth_error rows b = Some x -> nth_error ls b = Some cl ->
    loglik m x 0 0 0 = mixture_ll n w cl /\
    prob m x 0 0 0 = density fm F n out w x.
Proof.
  intros OK HF W E L. destruct (component_ll_inv _ _ _ _ _ L) as (_ & A & ->). split; [apply map_length|].
  intros b x cl Hb Hc. assert (In x rows) as IX by (eapply nth_error_In; eauto).
  pose proof (eq_trans (eq_sym Hc) (map_nth_error (fun (x : row) i => bsum F (fun f => cell_ll fm F (out i) f (x f))) b rows Hb)) as Hd. injection Hd as ->.
  assert (prob m x 0 0 0 = density fm F n out w x) as P by (apply (compiled_density mode); auto). split; [|exact P].
  apply pr_inj. change (pr (loglik m x 0 0 0)) with (prob m x 0 0 0). rewrite P. symmetry. apply mixture_ll_density; auto.
Qed.

(** *** rows *)
Lemma supp_admissible fm F out j a : family_ok fm -> supp (fam_of fm F out j) a = true <-> admissible fm (Some a).
Proof.
  intros OK. destruct fm as [|[K|]|eps]; cbn [fam_of supp admissible].
  - rewrite <- bern01. destruct (asnat a) as [k|]; [|tauto]. change (Nat.ltb k 2) with (Nat.leb k 1). tauto.
  - split.
    + destruct (asnat a) as [k|] eqn:E; [|discriminate]. intros H. apply Nat.ltb_lt in H. exists k. split; [exact H|now apply asnat_Some].
    + intros (k & Hk & ->). rewrite asnat_INR. now apply Nat.ltb_lt.
  - contradiction.
  - tauto.
Qed.
Lemma default_admissible fm F out j : family_ok fm -> admissible fm (Some (supported_value (fam_of fm F out j))).
Proof.
  destruct fm as [|[K|]|eps]; cbn; intros OK; auto. exists 1%nat. split; [lia|reflexivity].
Qed.
Lemma leaf_validates fm F out j x : family_ok fm -> validates (fleaf_at fm F out j) x = true <-> admissible fm (x j).
Proof.
  intros OK. rewrite validates_true. assert (VS : forall a, vsupp (fleaf_at fm F out j) 0 0 0 a = supp (fam_of fm F out j) a).
  { intros a. unfold vsupp. cbn [fleaf_at mk_fleaf fl_fam]. destruct fm as [|[K|]|eps]; reflexivity. }
  assert (EI : imputed (fleaf_at fm F out j) x 0 = match x j with Some a => a | None => supported_value (fam_of fm F out j) end) by reflexivity.
  split.
  - intros H. specialize (H 0%nat 0%nat 0%nat). rewrite VS, EI in H. assert (entries (fleaf_at fm F out j) 0 0 0) as EN by (unfold entries; cbn; lia).
    specialize (H EN). destruct (x j) as [a|]; [|exact I]. now apply (supp_admissible fm F out j a OK).
  - intros A f c r (Hf & Hc & Hr). cbn in Hf, Hc, Hr. assert (f = 0%nat) as -> by lia. assert (c = 0%nat) as -> by lia. assert (r = 0%nat) as -> by lia.
    rewrite VS, EI. apply (supp_admissible fm F out j _ OK). destruct (x j) as [a|]; [exact A|]. now apply default_admissible.
Qed.

(** *** construction *)
Lemma mk_product_nil : mk_product [] = Err.
Proof. reflexivity. Qed.
Lemma compile_iff mode fm F n out w :
  (exists m, compile_factorized mode fm F n out w = Ok m) <->
  (1 <= n)%nat /\ (1 <= F)%nat /\ fm <> Catg None /\ (forall i, (i < n)%nat -> 0 < w i) /\ Rabs (bsum n w - 1) <= / 10 ^ 6.
Proof.
  split.
  - intros (m & E). unfold compile_factorized in E. destruct n as [|n]; [discriminate|].
    destruct (mapr _ (seq 0 (S n))) as [comps|] eqn:EM; cbn [bind] in E; [|discriminate].
    assert (component mode fm F (out 0%nat) <> Err) as C0.
    { intros EC. rewrite (mapr_err (fun i => component mode fm F (out i)) (seq 0 (S n)) 0%nat) in EM; [discriminate|now left|exact EC]. }
    destruct comps as [|c0 comps]; [discriminate|].
    destruct (broadcast_weights _ _ _) as [wt|] eqn:EB; cbn [bind] in E; [|discriminate]. destruct (broadcast_inv _ _ _ _ EB) as [WP WS].
    split; [lia|]. assert (1 <= F)%nat as HF.
    { destruct F; [|lia]. exfalso. apply C0. reflexivity. }
    split; [exact HF|]. split; [|auto]. intros ->. apply C0. unfold component.
    rewrite (mapr_err _ (seq 0 F) 0%nat); [reflexivity|apply in_seq; lia|reflexivity].
  - intros (Hn & HF & NC & WP & WS). destruct (compile_ok mode fm F n out w NC HF Hn WP WS) as (m & E & _). eauto.
Qed.

Lemma compile_normalised mode fm F n out w m : family_ok fm -> compile_factorized mode fm F n out w = Ok m ->
  forall x, sums_over (fun _ => family_range fm) (seq 0 F) (fun y => prob m y 0 0 0) x 1.
Proof.
  intros OK E x. destruct (proj1 (compile_iff mode fm F n out w) (ex_intro _ m E)) as (Hn & HF & NC & WP & WS).
  destruct (compile_ok mode fm F n out w NC HF Hn WP WS) as (m' & E' & B & A & U & SH & V & LV & _). rewrite E in E'. injection E' as <-.
  pose proof (built_wf m B) as W. apply (families_normalised (fun _ => family_range fm) m (mkShape 1 1 1) 0 0 0).
  - exact B.
  - exact A.
  - apply Forall_forall. intros l Hl. destruct (LV l Hl) as (i & j & Hi & Hj & ->). unfold family_leaf, leaf_at. eexists _, _. split; [reflexivity|].
    intros f c r _ _ _. cbn [fleaf_at mk_fleaf fl_fam]. split.
    + destruct fm as [|[K|]|eps]; cbn in *; try reflexivity. apply Nat.ltb_lt. lia.
    + left. destruct fm as [|[K|]|eps]; try reflexivity. contradiction.
  - rewrite <- SH. now apply (c08 m 1).
  - repeat split; cbn; lia.
  - apply seq_NoDup.
  - intros v. rewrite <- V. rewrite (wf_union m (wf_wf1 m W) v). rewrite SH. cbn [features]. split.
    + intros (f & Hf & Hv). assert (f = 0%nat) as -> by lia. exact Hv.
    + intros Hv. exists 0%nat. split; [lia|exact Hv].
Qed.
