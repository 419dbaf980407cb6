(** Lemmas behind the property theorems of P_Circuit.v. *)
From Coq Require Import List Arith Bool Lia Lra.
From Verif Require Import Base ScopeModel ScopeProofs CircuitModel CircuitSpec CircuitBasics CircuitEval Integral CircuitMarg MargModel MargProofs.
Import ListNotations.
Local Open Scope R_scope.

Lemma c02 D m s f c r : built m -> aligned m -> leaves_norm D m -> ll_shape m = Ok s -> in_shape s f c r ->
  forall vs x, NoDup vs -> incl vs (nth f (fts m) []) ->
  sums_over D vs (fun y => prob m y f c r) x (prob m (set_nan vs x) f c r).
Proof.
  intros B A N L I vs x ND HI. pose proof (built_wf m B) as W.
  apply (sums_over_nan D (fun y => prob m y f c r) (fun v => In v (nthq m f))); auto.
  intros v y Hv. apply marg1; auto. eapply in_shape_pos; eauto.
Qed.

Lemma c01 D m s f c r : built m -> aligned m -> leaves_norm D m -> ll_shape m = Ok s -> in_shape s f c r ->
  forall vs x, NoDup vs -> (forall v, In v vs <-> In v (nth f (fts m) [])) ->
  sums_over D vs (fun y => prob m y f c r) x 1.
Proof.
  intros B A N L I vs x ND HI. pose proof (built_wf m B) as W.
  rewrite <- (prob_all_nan m W A f c r (in_shape_pos m s f c r W L I) (set_nan vs x)).
  - eapply c02; eauto. intros v Hv. now apply HI.
  - intros v Hv. apply set_nan_In. now apply HI.
Qed.

(** single-feature circuits: the feature's scope is the whole scope *)
Lemma c01_scope D m s c r : built m -> aligned m -> leaves_norm D m -> ll_shape m = Ok s ->
  features (out_shape m) = 1%nat -> in_shape s 0 c r ->
  forall x, sums_over D (query (scope_of m)) (fun y => prob m y 0 c r) x 1.
Proof.
  intros B A N L F1 I x. pose proof (built_wf m B) as W. eapply c01; eauto.
  - apply (wf_scope m (wf_wf1 m W)).
  - intros v. rewrite (wf_union m (wf_wf1 m W) v). rewrite F1. split.
    + intros (f & Hf & Hv). assert (f = 0%nat) as -> by lia. exact Hv.
    + intros Hv. exists 0%nat. split; [lia|exact Hv].
Qed.

Lemma c03 m s f c r x : built m -> ll_shape m = Ok s -> in_shape s f c r ->
  (forall v, vars m v -> x v = None) -> loglik m x f c r = Fin 0.
Proof.
  intros B L I H. pose proof (built_wf m B) as W. apply prob_loglik_0.
  apply evalm_scope_nan; auto. eapply in_shape_pos; eauto.
Qed.

Lemma c04 m s f c r x y : built m -> ll_shape m = Ok s -> in_shape s f c r ->
  (forall v, vars m v -> x v = y v) -> loglik m x f c r = loglik m y f c r.
Proof.
  intros B L I H. pose proof (built_wf m B) as W. apply evalm_scope_local; auto.
  destruct (ll_shape_spec m s W L) as (<- & _). apply I.
Qed.

Lemma c04_feature m s f c r x y : built m -> aligned m -> ll_shape m = Ok s -> in_shape s f c r ->
  (forall v, In v (nth f (fts m) []) -> x v = y v) -> loglik m x f c r = loglik m y f c r.
Proof.
  intros B A L I H. pose proof (built_wf m B) as W. apply pr_inj.
  apply (prob_local m W A f c r); auto. eapply in_shape_pos; eauto.
Qed.

(** C05 *)
Lemma c05 S prune m s : built m -> aligned m -> reps_ok m -> no_evidence m -> ll_shape m = Ok s ->
  exists o, marg S prune m = Ok o /\
    (o = None <-> (forall v, vars m v -> In v S)) /\
    (forall m', o = Some m' ->
       (forall v, vars m' v <-> vars m v /\ ~ In v S) /\
       exists s', ll_shape m' = Ok s' /\ channels s' = channels s /\ repetitions s' = repetitions s /\
         features s' = length (kidx S (fts m)) /\
         forall j c r x, in_shape s' j c r ->
           loglik m' x j c r = loglik m (set_nan S x) (nth j (kidx S (fts m)) 0%nat) c r).
Proof.
  intros B A RO NE L. pose proof (built_wf m B) as W.
  destruct (marg_spec S prune m W A RO NE) as (o & E & M). exists o. split; [assumption|]. split.
  - destruct o as [m'|]; cbn in M; [|split; [intros _; exact M|reflexivity]].
    split; [discriminate|]. intros H. exfalso. now apply M.
  - intros m' ->. destruct M as [_ R]. split; [apply R|].
    destruct (r_ll _ _ _ R (ex_intro _ s L)) as [(s' & L') RR]. exists s'.
    destruct (ll_shape_spec m s W L) as (E1 & E2 & E3).
    destruct (ll_shape_spec m' s' (r_wf _ _ _ R) L') as (F1 & F2 & F3).
    pose proof (rel_features S m m' W R) as FK. pose proof (r_ch _ _ _ R) as CH.
    repeat split; auto; try congruence.
    intros j c r x (Hj & Hc & Hr). apply pr_inj. apply (r_val _ _ _ R); [congruence|].
    split; [eauto|]. assert (j < length (kidx S (fts m)))%nat as Hj' by congruence.
    pose proof (nth_In (kidx S (fts m)) 0%nat Hj') as Hin. apply kidx_In in Hin.
    rewrite (wf_len m (wf_wf1 m W)) in Hin. repeat split; [tauto|congruence|congruence].
Qed.

(** single-feature circuits *)
Lemma c05_single S prune m s : built m -> aligned m -> reps_ok m -> no_evidence m -> ll_shape m = Ok s ->
  features (out_shape m) = 1%nat -> ~ (forall v, vars m v -> In v S) ->
  exists m' s', marg S prune m = Ok (Some m') /\ (forall v, vars m' v <-> vars m v /\ ~ In v S) /\
    ll_shape m' = Ok s' /\ s' = s /\
    forall c r x, in_shape s 0 c r -> loglik m' x 0 c r = loglik m (set_nan S x) 0 c r.
Proof.
  intros B A RO NE L F1 NC. pose proof (built_wf m B) as W.
  destruct (c05 S prune m s B A RO NE L) as (o & E & N & H).
  destruct o as [m'|]; [|exfalso; apply NC; now apply N].
  destruct (H m' eq_refl) as (HV & s' & L' & H1 & H2 & H3 & H4).
  pose proof (wf_len m (wf_wf1 m W)) as LF. rewrite F1 in LF.
  assert (kidx S (fts m) = [0%nat]) as K.
  { unfold kidx. rewrite LF. cbn [seq filter].
    destruct (nonempty (kept S (nth 0 (fts m) []))) eqn:EN; [reflexivity|]. exfalso. apply NC.
    intros v Hv. destruct (in_dec Nat.eq_dec v S) as [|X]; [assumption|]. exfalso.
    apply (wf_union m (wf_wf1 m W)) in Hv. destruct Hv as (f & Hf & Hv). rewrite F1 in Hf.
    assert (f = 0%nat) as -> by lia.
    assert (nonempty (kept S (nth 0 (fts m) [])) = true); [|congruence]. apply nonempty_kept. eauto. }
  rewrite K in *. cbn in H3.
  destruct (ll_shape_spec m s W L) as (E1 & _).
  assert (s' = s) as ->.
  { destruct s, s'; cbn in *. congruence. }
  exists m', s. split; [exact E|]. split; [exact HV|]. split; [assumption|]. split; [reflexivity|].
  - intros c r x HI. rewrite H4 by exact HI. reflexivity.
Qed.

(** C06 *)
Lemma c06_convex c co rr lg : built (MSum c co rr lg) -> forall f o r,
  (forall i, (i < channels (out_shape c))%nat -> 0 < wv (sum_weights c co rr lg) f i o r) /\
  bsum (channels (out_shape c)) (fun i => wv (sum_weights c co rr lg) f i o r) = 1.
Proof.
  intros B f o r. pose proof (built_wf _ B) as W. cbn in W. destruct W as [W _].
  split; [intros; now apply sum_weights_pos|now apply sum_weights_sum].
Qed.

Lemma c06_assign c co rr w m : built c -> set_weights c co rr w = Ok m ->
  exists lg, m = MSum c co rr lg /\
  forall f i o r, (f < wF w)%nat -> (i < wI w)%nat -> (o < wO w)%nat -> (r < wR w)%nat ->
    wv (sum_weights c co rr lg) f i o r = wv w f i o r / bsum (wI w) (fun j => wv w f j o r).
Proof.
  intros B H. apply set_weights_ok in H. destruct H as (-> & E1 & E2 & E3 & E4 & HP & _).
  eexists. split; [reflexivity|]. intros f i o r Hf Hi Ho Hr. cbn [sum_weights wv]. unfold softmax.
  rewrite exp_ln by auto. f_equal. rewrite <- E2. apply bsum_ext. intros j Hj. apply exp_ln. auto.
Qed.

Lemma c06_reject c co rr w :
  (exists m, set_weights c co rr w = Ok m) <->
  wF w = features (out_shape c) /\ wI w = channels (out_shape c) /\ wO w = co /\ wR w = rr /\
  (forall f i o r, (f < wF w)%nat -> (i < wI w)%nat -> (o < wO w)%nat -> (r < wR w)%nat -> 0 < wv w f i o r) /\
  (forall f o r, (f < wF w)%nat -> (o < wO w)%nat -> (r < wR w)%nat ->
     Rabs (bsum (wI w) (fun i => wv w f i o r) - 1) <= / 10 ^ 8 + / 10 ^ 5).
Proof.
  split.
  - intros (m & H). apply set_weights_ok in H. destruct H as (_ & H). exact H.
  - intros (E1 & E2 & E3 & E4 & HP & HS). unfold set_weights.
    assert (weights_shape_ok w (features (out_shape c)) (channels (out_shape c)) co rr = true) as ->.
    { unfold weights_shape_ok. rewrite E1, E2, E3, E4, !Nat.eqb_refl. reflexivity. }
    assert (weights_pos w = true) as ->.
    { unfold weights_pos, allb.
      apply forallb_forall; intros f Hf. apply forallb_forall; intros i Hi.
      apply forallb_forall; intros o Ho. apply forallb_forall; intros r Hr.
      apply in_seq in Hf, Hi, Ho, Hr. unfold rlt. destruct (Rlt_dec _ _) as [|N]; [reflexivity|].
      exfalso. apply N, HP; lia. }
    assert (weights_sum1 w = true) as ->; [|cbn; eauto].
    unfold weights_sum1, allb.
    apply forallb_forall; intros f Hf. apply forallb_forall; intros o Ho. apply forallb_forall; intros r Hr.
    apply in_seq in Hf, Ho, Hr. unfold close1, rle. destruct (Rle_dec _ _) as [|N]; [reflexivity|].
    exfalso. apply N, HS; lia.
Qed.

(** C07 *)
Lemma wf_node n m : node_of n m -> wf m -> wf n.
Proof.
  induction 1 as [m|n c co rr lg H IH|n c H IH|n c d2 sc cs Hin H IH]; intros W; auto.
  - cbn in W. apply IH, W.
  - pose proof (wf_cat_children _ _ _ W) as Wc. rewrite Forall_forall in Wc. auto.
Qed.

Lemma wf_node_good m : wf m -> node_good m.
Proof.
  intros W. pose proof (wf_wf1 m W) as W1. destruct m as [l|c co rr lg|d2 sc cs|c]; cbn [node_good].
  - cbn in W. apply leaf_okb_spec in W. destruct W as (V & Q & _). split; [assumption|apply V].
  - intros v. reflexivity.
  - pose proof W as W'. cbn in W'. destruct W' as (Hne & _ & W'). destruct d2.
    + destruct W' as (_ & Heq & Hsc). split; [assumption|].
      assert (equal_inputs cs) as EI.
      { intros c c' Hc Hc' v. specialize (Heq c c' Hc Hc'). apply scope_eqb_spec in Heq. apply Heq. }
      split; [assumption|]. intros v. unfold vars at 1. cbn [scope_of]. rewrite Hsc.
      assert (In (hd (MCat true sc []) cs) cs) as Hh by (clear - Hne; destruct cs; [congruence|now left]).
      split; [intros Hv; exists (hd (MCat true sc []) cs); auto|].
      intros (c & Hc & Hv). eapply EI; eauto.
    + destruct W' as (_ & HD & _ & HU). split; [assumption|]. split; [|exact HU].
      intros i j d Hi Hj Hn.
      pose proof (ForallOrdPairs_In_sym disjoint_scopes (map scope_of cs) disjoint_scopes_sym HD i j (scope_of d)) as X.
      rewrite map_length, !map_nth in X. exact (X Hi Hj Hn).
  - cbn in W. pose proof (wf_wf1 c W) as Wc. split; [reflexivity|]. split.
    + intros f g v Hf Hg Hn. apply (wf_disj c Wc f g Hf Hg Hn).
    + intros v. apply (wf_union c Wc v).
Qed.

Lemma c07 m n : built m -> node_of n m -> node_good n.
Proof. intros B N. apply wf_node_good. eapply wf_node; eauto. now apply built_wf. Qed.

Lemma mk_cat_iff (d2 : bool) cs : Forall built cs ->
  ((exists m, mk_cat d2 cs = Ok m) <->
   cs <> [] /\
   (if d2 then (forall c c', In c cs -> In c' cs -> features (out_shape c) = features (out_shape c') /\
                  scope_eqb (scope_of c) (scope_of c') = true)
    else (forall c c', In c cs -> In c' cs -> channels (out_shape c) = channels (out_shape c')) /\ disjoint_inputs cs)).
Proof.
  intros B. assert (Forall wf cs) as W by (eapply Forall_impl; [|exact B]; intros; now apply built_wf). split.
  - intros (m & H). destruct (mk_cat_ok d2 cs m W H) as (sc & -> & Wm).
    pose proof (wf_node_good _ Wm) as G. cbn [node_good] in G. cbn in Wm. destruct Wm as (Hne & _ & Wm).
    split; [assumption|]. destruct d2.
    + destruct Wm as (HF & Heq & _). rewrite Forall_forall in HF. intros c c' Hc Hc'. split; [|auto].
      now rewrite (HF c Hc), (HF c' Hc').
    + destruct Wm as (HF & _). rewrite Forall_forall in HF. split; [|apply G].
      intros c c' Hc Hc'. now rewrite (HF c Hc), (HF c' Hc').
  - intros (Hne & H). destruct cs as [|c0 cs]; [congruence|]. destruct d2.
    + eexists. apply mk_cat_true_intro; intros; apply H; auto; now left.
    + destruct H as [HC HD]. destruct (mk_cat_false_intro c0 cs) as (sc & E); eauto.
      * intros; apply HC; auto; now left.
      * clear - HD. revert HD. generalize (c0 :: cs). intros l. induction l as [|c l IH]; intros HD; [constructor|].
        cbn [map]. constructor.
        -- apply Forall_forall. intros s Hs. apply in_map_iff in Hs. destruct Hs as (d & <- & Hd).
           apply In_nth with (d := c) in Hd. destruct Hd as (i & Hi & <-).
           exact (HD 0%nat (S i) c ltac:(cbn; lia) ltac:(cbn; lia) ltac:(lia)).
        -- apply IH. intros i j d Hi Hj Hn. exact (HD (S i) (S j) d ltac:(cbn; lia) ltac:(cbn; lia) ltac:(lia)).
Qed.

(** C08 *)
Lemma uniform_ll m R : wf m -> uniform R m -> ll_shape m = Ok (out_shape m) /\ repetitions (out_shape m) = R.
Proof.
  induction m as [l|c co rr lg IH|d2 sc cs IH|c IH] using module_ind'; intros W U.
  - cbn in U |- *. auto.
  - cbn in W, U. destruct W as [W _], U as [U ->]. destruct (IH W U) as [E1 E2]. cbn. rewrite E1. cbn.
    rewrite !bcast_same. cbn. rewrite E2, bcast_same. cbn. auto.
  - pose proof (wf_cat_children _ _ _ W) as Wc. cbn in U. apply go_Forall in U.
    assert (forall c, In c cs -> ll_shape c = Ok (out_shape c) /\ repetitions (out_shape c) = R) as H.
    { rewrite Forall_forall in *. intros; apply IH; auto. }
    pose proof W as W'. cbn in W'. destruct W' as (Hne & _ & W').
    assert (repetitions (out_shape (MCat d2 sc cs)) = R) as ER.
    { destruct cs as [|c0 cs0]; [congruence|]. destruct d2; cbn; apply H; now left. }
    split; [|assumption].
    destruct cs as [|c0 cs0] eqn:Ecs; [congruence|]. rewrite <- Ecs in *.
    assert (In c0 cs) as H0 by (subst; now left).
    destruct (cat_go_intro d2 c0 cs0) as (s & Es & _).
    { rewrite <- Ecs. intros c Hc. destruct (H c Hc) as [E1 E2]. exists (out_shape c). split; [assumption|].
      intros t0 Ht0. destruct (H c0 H0) as [G1 G2]. rewrite G1 in Ht0. injection Ht0 as <-. split; [congruence|].
      destruct d2.
      - destruct W' as (HF & _). rewrite Forall_forall in HF. rewrite (HF c Hc). subst cs. reflexivity.
      - destruct W' as (HF & _). rewrite Forall_forall in HF. rewrite (HF c Hc). subst cs. reflexivity. }
    rewrite <- Ecs in Es. change (ll_shape (MCat d2 sc cs)) with (cat_go d2 cs). rewrite Es.
    assert (ll_shape (MCat d2 sc cs) = Ok s) as L by exact Es.
    destruct (ll_shape_spec _ s W L) as (E1 & E2 & E3).
    assert (ll_reps (MCat d2 sc cs) = R) as E4.
    { destruct (ll_shape_cat _ _ _ _ Wc L c0 H0) as [_ <-]. destruct (H c0 H0) as [G1 G2].
      rewrite Forall_forall in Wc. destruct (ll_shape_spec c0 _ (Wc c0 H0) G1) as (_ & _ & <-). assumption. }
    f_equal. destruct s, (out_shape (MCat d2 sc cs)); cbn in *. congruence.
  - cbn in W, U. destruct (IH W U) as [E1 E2]. cbn. rewrite E1. cbn. auto.
Qed.

Lemma uniform_reps_ok m R : wf m -> (1 <= R)%nat -> uniform R m -> reps_ok m /\ fts_cols m = R.
Proof.
  intros W HR. induction m as [l|c co rr lg IH|d2 sc cs IH|c IH] using module_ind'; intros U.
  - cbn in *. auto.
  - cbn in W, U. destruct W as [W _], U as [U ->]. destruct (IH W U) as [E1 E2]. cbn. repeat split; auto. lia.
  - pose proof (wf_cat_children _ _ _ W) as Wc. cbn in U. apply go_Forall in U.
    rewrite Forall_forall in IH, Wc, U. split.
    + cbn. apply go_Forall, Forall_forall. intros c Hc. apply IH; auto.
    + cbn in W. destruct W as (Hne & _). destruct cs as [|c cs]; [congruence|]. cbn. apply IH; auto; try now left.
      * apply Wc; now left.
      * apply U; now left.
  - cbn in W, U. destruct (IH W U) as [E1 E2]. cbn. split; [assumption|]. now apply uniform_ll.
Qed.

Lemma c08 m R : built m -> uniform R m -> ll_shape m = Ok (out_shape m).
Proof. intros B U. apply (uniform_ll m R); [now apply built_wf|assumption]. Qed.
