(** WeightedSum: sums with raw weights. *)
From Coq Require Import List Arith Bool Reals Lia Lra FunctionalExtensionality.
From Verif Require Import Base ScopeModel CircuitModel CircuitSpec CircuitBasics CircuitEval CircuitProps Integral CircuitMarg MargModel SkProofs SocsTop MargProofs ScopeProofs ExpUnique LeafTop PromGraph
  SampleModel SampleSpec SampleExp SampleExamples CircuitExamples WsModel WsSpec WsProofs.
Import ListNotations.
Local Open Scope R_scope.

(** ** C247: what the constructor accepts and stores *)
Theorem C247_construct cs wa c : ws_input cs = Ok c -> built c ->
  ((exists s, mk_ws cs wa = Ok s) <->
     nonneg (norm_warg wa) /\ (wF (norm_warg wa) = features (out_shape c) \/ wF (norm_warg wa) = 1%nat) /\ wI (norm_warg wa) = channels (out_shape c)) /\
  (forall s, mk_ws cs wa = Ok s -> w_in s = c /\
     ws_shape s = mkShape (features (out_shape c)) (wO (norm_warg wa)) (wR (norm_warg wa)) /\
     wF (w_w s) = features (out_shape c) /\ wI (w_w s) = channels (out_shape c) /\ nonneg (w_w s) /\
     forall f i o r, (f < features (out_shape c))%nat -> wv (w_w s) f i o r = wv (norm_warg wa) (bidx (wF (norm_warg wa)) f) i o r).
Proof.
  intros EI B. pose proof (wf_fpos c (wf_wf1 c (built_wf c B))) as FP. unfold mk_ws. rewrite EI. cbn [bind]. set (w := norm_warg wa).
  pose proof (spread_dims (features (out_shape c)) w) as (D1 & D2 & D3).
  destruct (weights_nonneg w) eqn:NN; cbn [negb].
  - apply weights_nonneg_spec in NN. destruct (Nat.eqb_spec (wF (spread (features (out_shape c)) w)) (features (out_shape c))) as [EF|NF]; cbn [negb].
    + rewrite D1. destruct (Nat.eqb_spec (wI w) (channels (out_shape c))) as [EC|NC]; cbn [negb].
      * split; [split; [intros _; split; [exact NN|]; split; [now apply spread_F|exact EC]|intros _; eexists; reflexivity]|].
        intros s E. injection E as <-. unfold ws_shape. cbn [w_in w_w]. rewrite D2, D3. do 3 (split; [reflexivity||exact EF|]). split; [congruence|]. split.
        -- intros f i o r Hf Hi Ho Hr. rewrite EF in Hf. rewrite spread_val by exact Hf. rewrite D1 in Hi. rewrite D2 in Ho. rewrite D3 in Hr. apply NN; auto.
           apply spread_F in EF; [|exact FP]. unfold bidx. destruct (Nat.eqb_spec (wF w) 1); [lia|]. destruct EF; lia.
        -- intros. now apply spread_val.
      * split; [split; [intros [s E]; discriminate|intros (_ & _ & E); contradiction]|intros s E; discriminate].
    + split; [split; [intros [s E]; discriminate|intros (_ & E & _); exfalso; apply NF; now apply spread_F]|intros s E; discriminate].
  - split; [split; [intros [s E]; discriminate|intros (E & _); apply weights_nonneg_spec in E; congruence]|intros s E; discriminate].
Qed.

(** ** C248: likelihood and total mass *)
Theorem C248_value s x f c r t : built (w_in s) -> nonneg (w_w s) -> wF (w_w s) = features (out_shape (w_in s)) -> wI (w_w s) = channels (out_shape (w_in s)) ->
  ws_ll_shape s = Ok t -> in_shape t f c r ->
  pr (ws_ll s x f c r) = bsum (channels (out_shape (w_in s))) (fun i =>
    wv (w_w s) f i c (bidx (wR (w_w s)) r) * prob (w_in s) x f i (bidx (ll_reps (w_in s)) r)).
Proof.
  intros B NN EF EI LS (Hf & Hc & Hr). rewrite pr_ws_ll. apply bsum_ext. intros i Hi. f_equal. apply Rmax_right.
  unfold ws_ll_shape in LS. destruct (ll_shape (w_in s)) as [t0|] eqn:L0; [|discriminate]. cbn [bind] in LS. destruct (ll_shape_spec _ _ (built_wf _ B) L0) as (E1 & E2 & E3).
  rewrite E1, E2, EF, EI, !bcast_same in LS. cbn [bind] in LS. destruct (bcast (repetitions t0) (wR (w_w s))) as [Rr|] eqn:EB; [|discriminate]. cbn [bind] in LS. injection LS as <-. cbn [features channels repetitions] in *.
  apply NN; [lia|lia|lia|]. unfold bcast in EB. unfold bidx. destruct (Nat.eqb_spec (wR (w_w s)) 1); [lia|]. destruct (Nat.eqb_spec (repetitions t0) (wR (w_w s))); [injection EB as <-; lia|].
  destruct (Nat.eqb_spec (repetitions t0) 1); [injection EB as <-; lia|discriminate].
Qed.
(** over the variables of feature [f] the likelihoods add up to the sum of the weights *)
Theorem C248_total D s f c r t vs x : built (w_in s) -> aligned (w_in s) -> leaves_norm D (w_in s) -> nonneg (w_w s) ->
  wF (w_w s) = features (out_shape (w_in s)) -> wI (w_w s) = channels (out_shape (w_in s)) -> ws_ll_shape s = Ok t -> in_shape t f c r ->
  NoDup vs -> (forall v, In v vs <-> In v (nth f (fts (w_in s)) [])) ->
  sums_over D vs (fun y => pr (ws_ll s y f c r)) x (bsum (channels (out_shape (w_in s))) (fun i => wv (w_w s) f i c (bidx (wR (w_w s)) r))).
Proof.
  intros B A N NN EF EI LS IS ND HV. pose proof (built_wf _ B) as Wf.
  assert (EQ : (fun y => pr (ws_ll s y f c r)) = (fun y => bsum (channels (out_shape (w_in s))) (fun i => wv (w_w s) f i c (bidx (wR (w_w s)) r) * prob (w_in s) y f i (bidx (ll_reps (w_in s)) r)))).
  { apply functional_extensionality. intros y. eapply C248_value; eassumption. }
  rewrite EQ. apply sums_over_bsum; [exact (wf_cpos _ (wf_wf1 _ Wf))|]. intros i Hi.
  match goal with |- sums_over _ _ _ _ ?u => cut (sums_over D vs (fun y => u * prob (w_in s) y f i (bidx (ll_reps (w_in s)) r)) x (u * 1)); [rewrite Rmult_1_r; intros QQ; exact QQ|] end. apply (sums_over_scal D).
  unfold ws_ll_shape in LS. destruct (ll_shape (w_in s)) as [t0|] eqn:L0; [|discriminate]. cbn [bind] in LS. destruct (ll_shape_spec _ _ Wf L0) as (E1 & E2 & E3).
  rewrite E1, E2, EF, EI, !bcast_same in LS. cbn [bind] in LS. destruct (bcast (repetitions t0) (wR (w_w s))) as [Rr|] eqn:EB; [|discriminate]. cbn [bind] in LS. injection LS as <-.
  destruct IS as (Hf & Hc & Hr). cbn [features channels repetitions] in *. eapply c01; [exact B|exact A|exact N|exact L0| |exact ND|exact HV].
  repeat split; [lia|lia|]. rewrite <- E3. unfold bcast in EB. unfold bidx. destruct (Nat.eqb_spec (repetitions t0) 1); [lia|]. destruct (Nat.eqb_spec (repetitions t0) (wR (w_w s))); [injection EB as <-; lia|].
  destruct (Nat.eqb_spec (wR (w_w s)) 1); [injection EB as <-; lia|discriminate].
Qed.

(** ** C249: the weights setter keeps the weights non-negative *)
Definition setter_nonneg : Prop := forall cs wa s v s', mk_ws cs wa = Ok s -> ws_set s v = Ok s' -> nonneg (w_w s').
Definition exWt (a b : R) : wtensor := mkW 1 2 1 1 (fun _ i _ _ => if Nat.eqb i 0 then a else b).
Definition exWs (a b : R) : ws := mkWs (MProduct exA) (exWt a b).
Lemma exWt_nonneg a b : 0 <= a -> 0 <= b -> nonneg (exWt a b).
Proof. intros Ha Hb f i o r _ _ _ _. cbn [exWt wv]. destruct (Nat.eqb i 0); assumption. Qed.
Lemma exWs_made a b : 0 <= a -> 0 <= b -> mk_ws [MProduct exA] (W4 (exWt a b)) = Ok (exWs a b).
Proof.
  intros Ha Hb. unfold mk_ws. cbn [ws_input bind norm_warg]. rewrite (proj2 (weights_nonneg_spec _) (exWt_nonneg a b Ha Hb)). reflexivity.
Qed.
Theorem C249_setter_refuted : ~ setter_nonneg.
Proof.
  intros H. assert (N : nonneg (exWt (-1) 1)).
  { apply (H [MProduct exA] (W4 (exWt 1 1)) (exWs 1 1) (exWt (-1) 1) (exWs (-1) 1)); [apply exWs_made; lra|reflexivity]. }
  specialize (N 0%nat 0%nat 0%nat 0%nat). cbn in N. specialize (N ltac:(lia) ltac:(lia) ltac:(lia) ltac:(lia)). lra.
Qed.
(** the setter checks the shape only, and a negative weight then counts as zero *)
Theorem C249_setter s v : (exists s', ws_set s v = Ok s') <-> wF v = wF (w_w s) /\ wI v = wI (w_w s) /\ wO v = wO (w_w s) /\ wR v = wR (w_w s).
Proof.
  unfold ws_set, weights_shape_ok. rewrite <- !Nat.eqb_eq. destruct (Nat.eqb (wF v) _), (Nat.eqb (wI v) _), (Nat.eqb (wO v) _), (Nat.eqb (wR v) _); cbn [andb]; split; intros H; try (destruct H as [s' H]; discriminate); try (destruct H as (? & ? & ? & ?); discriminate); [repeat split; reflexivity|eexists; reflexivity].
Qed.
Theorem C249_negative_as_zero s x f c r : pr (ws_ll s x f c r) =
  bsum (channels (out_shape (w_in s))) (fun i => Rmax 0 (wv (w_w s) f i c (bidx (wR (w_w s)) r)) * prob (w_in s) x f i (bidx (ll_reps (w_in s)) r)).
Proof. exact (pr_ws_ll s x f c r). Qed.

(** ** C250: samples follow the normalised likelihood *)
Theorem C250_sample (dom : nat -> list R) W s t : (forall v, NoDup (dom v)) ->
  built (w_in s) -> aligned (w_in s) -> ll_shape (w_in s) = Ok t -> (0 < repetitions t)%nat -> (forall v, vars (w_in s) v -> (v < W)%nat) ->
  nonneg (w_w s) -> wF (w_w s) = features (out_shape (w_in s)) -> wI (w_w s) = channels (out_shape (w_in s)) -> (0 < wO (w_w s))%nat -> (0 < wR (w_w s))%nat ->
  forall x vs y, (forall v, vars (w_in s) v -> x v = None) -> NoDup vs -> (forall v, In v vs <-> vars (w_in s) v) ->
  (forall v, In v vs -> exists b, y v = Some b /\ In b (dom v)) ->
  let total f := bsum (channels (out_shape (w_in s))) (fun i => wv (w_w s) f i 0 0) in
  ((forall f, (f < features (out_shape (w_in s)))%nat -> 0 < total f) ->
   expects (fun v => DFin (dom v)) (ws_sample_data false W s x) (tests (point y) vs)
     (bprod (features (out_shape (w_in s))) (fun f => pr (ws_ll s y f 0 0) / total f))) /\
  ((exists f, (f < features (out_shape (w_in s)))%nat /\ total f = 0) -> forall z, ~ outcome (ws_sample_data false W s x) z).
Proof.
  intros ND B A L HR HW NN EF EI EO ER x vs y Hx NDv Hvs Hy total. split.
  - intros HS. pose proof (ws_law dom W s t x y vs ND B A L HR HW EI EO ER) as LW. 
    match goal with |- expects _ _ _ ?u => replace u with (bprod (features (out_shape (w_in s))) (fun f => bsum (channels (out_shape (w_in s))) (fun i => wv (w_w s) f i 0 0 / total f * prob (w_in s) y f i 0))) end.
    + apply LW; auto. intros f i Hf Hi. apply NN; lia.
    + apply bprod_ext. intros f Hf. rewrite pr_ws_ll. unfold Rdiv. rewrite <- bsum_scal_r. apply bsum_ext. intros i Hi.
      rewrite Rmax_right.
      * assert (forall k, bidx k 0 = 0)%nat as BI by (intros k; unfold bidx; destruct (Nat.eqb k 1); reflexivity). rewrite !BI. ring.
      * apply NN; try lia. unfold bidx. destruct (Nat.eqb _ 1); lia.
  - intros (f & Hf & Z). apply ws_zero_row. exists f. split; [exact Hf|]. rewrite EI. unfold total in Z. lra.
Qed.

(** ** C251: sampling with evidence conditions on it *)
Definition conditions : Prop := forall (dom : nat -> list R) W s e vs y t, (forall v, NoDup (dom v)) -> built (w_in s) -> aligned (w_in s) -> leaves_norm (fun v => DFin (dom v)) (w_in s) ->
  nonneg (w_w s) -> ws_ll_shape s = Ok t -> features t = 1%nat -> (forall v, vars (w_in s) v -> (v < W)%nat) ->
  bsum (channels (out_shape (w_in s))) (fun i => wv (w_w s) 0 i 0 0) = 1 -> pr (ws_ll s e 0 0 0) <> 0 ->
  missing e (query (scope_of (w_in s))) vs -> (forall v, In v vs -> exists b, y v = Some b /\ In b (dom v)) -> (forall v, ~ In v vs -> y v = e v) ->
  expects (fun v => DFin (dom v)) (ws_sample_evidence false W s e) (tests (point y) vs) (pr (ws_ll s y 0 0 0) / pr (ws_ll s e 0 0 0)).

Lemma exWs_ignores : expects (fun _ => bits) (ws_sample_evidence false 3 (exWs (1/4) (3/4)) e1) (tests (point y1) [2]%nat) (5/16).
Proof.
  assert (forall i, (i < 2)%nat ->
    expects (fun _ => bits) (sample_m false 3 (Some e1) (MProduct exA) (mkCtx [i] [true] 0) e1) (tests (point y1) [2]%nat)
      (if Nat.eqb 1 i then 1/4 else 1/2)) as H.
  { intros i Hi. assert (i = 0 \/ i = 1)%nat as [-> | ->] by lia; cbn;
      (exists (fun a => if Req_EM_T a 1 then 1 else 0); split; [intros a; unfold tests, point; cbn; destruct (Req_EM_T a 1); ring|]);
      cbn; rewrite pr_bern_0, pr_bern_1 by lra; destruct (Req_EM_T 0 1); destruct (Req_EM_T 1 1); lra. }
  unfold ws_sample_evidence. change (ws_ll_shape (exWs (1/4) (3/4))) with (Ok (mkShape 1 1 1)). cbv iota.
  change (forallb _ _) with true. cbv iota. unfold ws_sample. cbv zeta.
  change (validate _ _ _ _) with true. cbv iota. change (broadcast (features (out_shape (w_in (exWs (1/4) (3/4))))) init_ctx) with (Ok init_ctx). cbv iota beta.
  cbn [init_ctx c_ci c_mask c_rep choose_channels].
  assert (ws_pick false (exWs (1/4) (3/4)) 0 0 0 = Choose 2 (fun i => (if Nat.eqb i 0 then 1/4 else 3/4) / bsum 2 (fun i => if Nat.eqb i 0 then 1/4 else 3/4)) (fun i => Ret i)) as ->.
  { unfold ws_pick. cbv zeta. change (Nat.ltb 0 _ && Nat.ltb 0 _)%bool with true. cbv iota. change (wI (w_w (exWs (1/4) (3/4)))) with 2%nat.
    change (fun i => wv (w_w (exWs (1/4) (3/4))) 0 i 0 0) with (fun i => if Nat.eqb i 0 then 1/4 else 3/4).
    destruct (Rle_dec _ 0) as [K|_]; [exfalso; cbn in K; lra|].
    replace (allb 2 _) with true; [reflexivity|]. symmetry. apply LeafTop.allb_true. intros i Hi. unfold rle. cbn [exWs w_w exWt wv]. destruct (Nat.eqb i 0); destruct (Rle_dec 0 _); try reflexivity; exfalso; lra. }
  cbn [pbind expects]. exists (fun i => if Nat.eqb 1 i then 1/4 else 1/2). split; [intros i Hi _; apply H, Hi|]. cbn. lra.
Qed.
Lemma exWs_ll x : pr (ws_ll (exWs (1/4) (3/4)) x 0 0 0) = prob exS x 0 0 0.
Proof.
  rewrite pr_ws_ll. unfold exS. rewrite (prob_pev (MSum _ _ _ _)), pev_sum by (cbn; lia).
  change (channels (out_shape (w_in (exWs (1/4) (3/4))))) with 2%nat. change (channels (out_shape (MProduct exA))) with 2%nat.
  change (w_in (exWs (1/4) (3/4))) with (MProduct exA). change (bidx _ 0) with 0%nat. change (bidx _ 0) with 0%nat. 
  apply bsum_ext. intros i Hi. rewrite <- prob_pev. f_equal.
  rewrite (softmax_ln 2 (fun j => wv ex_w 0 j 0 0) i Hi).
  - assert (i = 0 \/ i = 1)%nat as [-> | ->] by lia; cbn; rewrite Rmax_right; lra.
  - intros j Hj. assert (j = 0 \/ j = 1)%nat as [-> | ->] by lia; cbn; lra.
  - cbn. lra.
Qed.
Theorem C251_conditions_refuted : ~ conditions.
Proof.
  intros H. specialize (H (fun _ => [0; 1]) 3%nat (exWs (1/4) (3/4)) e1 [2]%nat y1 (mkShape 1 1 1)).
  assert (E : expects (fun _ => bits) (ws_sample_evidence false 3 (exWs (1/4) (3/4)) e1) (tests (point y1) [2]%nat) (pr (ws_ll (exWs (1/4) (3/4)) y1 0 0 0) / pr (ws_ll (exWs (1/4) (3/4)) e1 0 0 0))).
  { apply H.
    - intros v. repeat constructor; cbn; intuition lra.
    - exact exP_built.
    - exact exS_aligned.
    - exact exS_norm.
    - apply exWt_nonneg; lra.
    - reflexivity.
    - reflexivity.
    - cbn. intros v [<-|[<-|[]]]; lia.
    - cbn. lra.
    - rewrite exWs_ll. pose proof exS_e1 as Q. rewrite joint_one in Q by reflexivity. rewrite Q. lra.
    - split; [repeat constructor; cbn; intuition lia|]. intros v. cbn. split.
      + intros [<-|[]]. split; [auto|reflexivity].
      + intros [[<-|[<-|[]]] K]; [discriminate|auto].
    - intros v [<-|[]]. exists 1. split; [reflexivity|cbn; auto].
    - intros v N. unfold y1, e1. destruct (Nat.eqb v 0); [reflexivity|]. destruct (Nat.eqb_spec v 2) as [->|]; [exfalso; apply N; now left|reflexivity]. }
  pose proof (expects_unique _ _ _ _ _ E exWs_ignores) as U. rewrite !exWs_ll in U. pose proof exS_e1 as Q1. pose proof exS_y1 as Q2. rewrite joint_one in Q1, Q2 by reflexivity. rewrite Q1, Q2 in U. lra.
Qed.

(** ** C252: marginalize *)
Theorem C252_marginalize V prune s t : built (w_in s) -> aligned (w_in s) -> reps_ok (w_in s) -> no_evidence (w_in s) -> ws_ll_shape s = Ok t ->
  nonneg (w_w s) -> wF (w_w s) = features (out_shape (w_in s)) -> wI (w_w s) = channels (out_shape (w_in s)) -> (1 <= wR (w_w s) <= fts_cols (w_in s))%nat ->
  exists o, ws_marg V prune s = Ok o /\
    (o = None <-> forall v, vars (w_in s) v -> In v V) /\
    (forall s', o = Some s' ->
       (forall v, vars (w_in s') v <-> vars (w_in s) v /\ ~ In v V) /\
       exists t', ws_ll_shape s' = Ok t' /\ channels t' = channels t /\ repetitions t' = repetitions t /\ features t' = length (kidx V (fts (w_in s))) /\
         forall j c r x, in_shape t' j c r -> ws_ll s' x j c r = ws_ll s (set_nan V x) (nth j (kidx V (fts (w_in s))) 0%nat) c r).
Proof.
  intros B A RO NE LS NN EF EI HR. destruct s as [m w]. cbn [w_in w_w] in *. pose proof (built_wf m B) as Wf.
  unfold ws_ll_shape in LS. cbn [w_in w_w] in LS. destruct (ll_shape m) as [t0|] eqn:L0; [|discriminate]. cbn [bind] in LS. destruct (ll_shape_spec _ _ Wf L0) as (E1 & E2 & E3).
  rewrite E1, E2, EF, EI, !bcast_same in LS. cbn [bind] in LS. destruct (bcast (repetitions t0) (wR w)) as [Rr|] eqn:EB; [|discriminate]. cbn [bind] in LS. injection LS as <-. cbn [features channels repetitions].
  destruct (c05 V prune m t0 B A RO NE L0) as (o & EM & HN & HS).
  assert (CV : covers V (scope_of m) = true <-> forall v, vars m v -> In v V) by apply MargProofs.covers_spec.
  unfold ws_marg. cbv zeta. cbn [w_in w_w]. destruct (covers V (scope_of m)) eqn:EC.
  - exists None. split; [reflexivity|]. split; [split; [intros _; now apply CV|reflexivity]|discriminate].
  - assert (NC : ~ forall v, vars m v -> In v V) by (intros K; apply CV in K; discriminate).
    destruct (touches V (scope_of m)) eqn:ET.
    + rewrite EM. cbn [bind]. destruct o as [m'|]; [|exfalso; apply NC, HN; reflexivity].
      destruct (HS m' eq_refl) as (HV & t1 & L1 & C1 & R1 & F1 & VAL).
      assert ((Nat.ltb (fts_cols m) (wR w) || Nat.eqb (wR w) 0)%bool = false) as -> by (apply orb_false_iff; split; [apply Nat.ltb_ge; lia|apply Nat.eqb_neq; lia]).
      assert (Wf' : wf m'). { pose proof (MargProofs.marg_spec V prune m Wf A RO NE) as (o' & EM' & MS). rewrite EM in EM'. injection EM' as <-. destruct MS as [_ RL]. apply RL. }
      destruct (ll_shape_spec m' t1 Wf' L1) as (G1 & G2 & G3).
      set (w' := mask_weights (kidx V (fts m)) w).
      assert (MK : mk_ws [m'] (W4 w') = Ok (mkWs m' w')).
      { unfold mk_ws. cbn [ws_input bind norm_warg]. rewrite (proj2 (weights_nonneg_spec w')); [|apply mask_nonneg; [rewrite EF; symmetry; apply (wf_len m (wf_wf1 m Wf))|exact NN]]. cbn [negb].
        assert (SP : spread (features (out_shape m')) w' = w'). { unfold spread. destruct (Nat.eqb_spec (wF w') 1) as [Q|Q]; [|reflexivity]. cbn [w' mask_weights wF] in Q. rewrite <- G1, F1, Q. reflexivity. }
        rewrite SP. cbn [w' mask_weights wF wI]. rewrite <- G1, F1, Nat.eqb_refl, <- G2, C1, E2, EI, Nat.eqb_refl. reflexivity. }
      fold w'. rewrite MK. cbn [bind]. eexists. split; [reflexivity|]. split; [split; [discriminate|intros K; contradiction]|].
      intros s' E. injection E as <-. cbn [w_in w_w]. split; [exact HV|].
      exists (mkShape (length (kidx V (fts m))) (wO w) Rr). split.
      * unfold ws_ll_shape. cbn [w_in w_w]. rewrite L1. cbn [bind w' mask_weights wF wI wO wR]. rewrite F1, bcast_same. cbn [bind]. rewrite C1, E2, EI, bcast_same. cbn [bind]. rewrite R1, EB. reflexivity.
      * cbn [features channels repetitions]. do 3 (split; [reflexivity|]). intros j c r x (Hj & Hc & Hr). cbn [features channels repetitions] in *.
        unfold ws_ll. cbv zeta. cbn [w_in w_w w' mask_weights wv wR]. rewrite <- G2, C1, E2. rewrite <- G3, R1, E3. unfold lse. f_equal. apply bsum_ext. intros i Hi. f_equal. f_equal.
        apply VAL. repeat split; [rewrite F1; exact Hj|rewrite C1, E2; exact Hi|]. rewrite R1.
        unfold bcast in EB. unfold bidx. rewrite <- E3. destruct (Nat.eqb_spec (repetitions t0) 1); [lia|]. destruct (Nat.eqb_spec (repetitions t0) (wR w)); [injection EB as <-; lia|]. destruct (Nat.eqb_spec (wR w) 1); [injection EB as <-; lia|discriminate].
    + assert (UT : forall v, vars m v -> ~ In v V). { intros v Hv K. assert (touches V (scope_of m) = true); [|congruence]. apply MargProofs.touches_spec. exists v. now split. }
      assert (MK : mk_ws [m] (W4 w) = Ok (mkWs m w)).
      { unfold mk_ws. cbn [ws_input bind norm_warg]. rewrite (proj2 (weights_nonneg_spec w) NN). cbn [negb].
        assert (SP : spread (features (out_shape m)) w = w). { unfold spread. destruct (Nat.eqb_spec (wF w) 1) as [Q|Q]; [|reflexivity]. rewrite <- EF, Q. reflexivity. }
        rewrite SP, EF, EI, !Nat.eqb_refl. reflexivity. }
      rewrite MK. cbn [bind]. eexists. split; [reflexivity|]. split; [split; [discriminate|intros K; contradiction]|].
      intros s' E. injection E as <-. cbn [w_in w_w]. split; [intros v; split; [intros Hv; split; [exact Hv|now apply UT]|tauto]|].
      assert (KI : kidx V (fts m) = seq 0 (length (fts m))).
      { unfold kidx. apply PromGraph.filter_id. intros f Hf. apply in_seq in Hf. assert (HF : (f < features (out_shape m))%nat) by (rewrite <- (wf_len m (wf_wf1 m Wf)); lia).
        pose proof (wf_qpos m (wf_wf1 m Wf) f HF) as NEQ. unfold nthq in NEQ. destruct (nth f (fts m) []) as [|v q] eqn:EQ; [contradiction|].
        unfold kept. cbn [filter]. assert (memb v V = false) as ->; [|reflexivity]. apply ScopeProofs.memb_false. apply UT. apply (wf_union m (wf_wf1 m Wf) v). exists f. split; [exact HF|]. unfold nthq. rewrite EQ. now left. }
      rewrite KI, seq_length, (wf_len m (wf_wf1 m Wf)). eexists. split.
      * unfold ws_ll_shape. cbn [w_in w_w]. rewrite L0. cbn [bind]. rewrite E1, E2, EF, EI, !bcast_same. cbn [bind]. rewrite EB. cbn [bind]. reflexivity.
      * cbn [features channels repetitions]. do 3 (split; [reflexivity|]). intros j c r x (Hj & Hc & Hr). cbn [features channels repetitions] in *. rewrite seq_nth by exact Hj. cbn [Nat.add].
        unfold ws_ll. cbv zeta. cbn [w_in w_w]. unfold lse. f_equal. apply bsum_ext. intros i Hi. do 2 f_equal.
        eapply c04_feature; [exact B|exact A|exact L0| |].
        -- repeat split; [lia|lia|]. unfold bcast in EB. unfold bidx. rewrite <- E3. destruct (Nat.eqb_spec (repetitions t0) 1); [lia|]. destruct (Nat.eqb_spec (repetitions t0) (wR w)); [injection EB as <-; lia|]. destruct (Nat.eqb_spec (wR w) 1); [injection EB as <-; lia|discriminate].
        -- intros v Hv. unfold set_nan. change (existsb (Nat.eqb v) V) with (memb v V). destruct (memb v V) eqn:M; [|reflexivity]. exfalso. apply (UT v); [apply (wf_union m (wf_wf1 m Wf) v); exists j; split; [exact Hj|exact Hv]|now apply memb_In].
Qed.

(** *** the hypotheses are met *)
Example ex_ws_built : built (w_in (exWs (1/4) (3/4))) /\ aligned (w_in (exWs (1/4) (3/4))) /\ leaves_norm (fun _ => bits) (w_in (exWs (1/4) (3/4))) /\
  nonneg (w_w (exWs (1/4) (3/4))) /\ reps_ok (w_in (exWs (1/4) (3/4))) /\ no_evidence (w_in (exWs (1/4) (3/4))) /\
  ws_ll_shape (exWs (1/4) (3/4)) = Ok (mkShape 1 1 1) /\ ll_shape (w_in (exWs (1/4) (3/4))) = Ok (mkShape 1 2 1) /\
  (1 <= wR (w_w (exWs (1/4) (3/4))) <= fts_cols (w_in (exWs (1/4) (3/4))))%nat.
Proof.
  split; [exact exP_built|]. split; [exact exS_aligned|]. split; [exact exS_norm|]. split; [apply exWt_nonneg; lra|].
  split; [cbn; intuition (lia || congruence)|]. split; [cbn; intuition|]. split; [reflexivity|]. split; [reflexivity|]. cbn. lia.
Qed.
(** unnormalised weights: total mass 5 *)
Example ex_ws_total x : sums_over (fun _ => bits) [0; 2]%nat (fun y => pr (ws_ll (exWs 2 3) y 0 0 0)) x 5.
Proof.
  replace 5 with (bsum (channels (out_shape (w_in (exWs 2 3)))) (fun i => wv (w_w (exWs 2 3)) 0 i 0 (bidx (wR (w_w (exWs 2 3))) 0))) by (cbn; lra).
  apply (C248_total (fun _ => bits) (exWs 2 3) 0 0 0 (mkShape 1 1 1)); try reflexivity; [exact exP_built|exact exS_norm|apply exWt_nonneg; lra|repeat split; cbn; lia|repeat constructor; cbn; intuition lia].
Qed.
(** an all-zero row never samples *)
Example ex_ws_zero x z : x 0%nat = None -> x 2%nat = None -> ~ outcome (ws_sample_data false 3 (exWs 0 0) x) z.
Proof.
  intros H0 H2. refine (proj2 (C250_sample (fun _ => [0;1]) 3 (exWs 0 0) (mkShape 1 2 1) _ exP_built exS_aligned eq_refl _ _ _ eq_refl eq_refl _ _ x [0;2]%nat y1 _ _ _ _) _ z).
  - intros v. repeat constructor; cbn; intuition lra.
  - cbn; lia.
  - cbn. intros v [<-|[<-|[]]]; lia.
  - apply exWt_nonneg; lra.
  - cbn; lia.
  - cbn; lia.
  - cbn. intros v [<-|[<-|[]]]; assumption.
  - repeat constructor; cbn; intuition lia.
  - intros v. reflexivity.
  - cbn. intros v [<-|[<-|[]]]; unfold y1; cbn; eexists; (split; [reflexivity|auto]).
  - exists 0%nat. split; [cbn; lia|]. cbn. lra.
Qed.
Example ex_ws_marg : exists s', ws_marg [0]%nat true (exWs (1/4) (3/4)) = Ok (Some s').
Proof.
  destruct ex_ws_built as (B & A & N & NN & RO & NE & LS & _ & HR).
  destruct (C252_marginalize [0]%nat true (exWs (1/4) (3/4)) _ B A RO NE LS NN eq_refl eq_refl HR) as ([s'|] & E & HN & _); [now exists s'|].
  exfalso. pose proof (proj1 HN eq_refl 2%nat ltac:(cbn; auto)) as K. cbn in K. destruct K as [K|[]]; discriminate.
Qed.

Print Assumptions C247_construct.
Print Assumptions C248_value.
Print Assumptions C248_total.
Print Assumptions C249_setter_refuted.
Print Assumptions C249_setter.
Print Assumptions C249_negative_as_zero.
Print Assumptions C250_sample.
Print Assumptions C251_conditions_refuted.
Print Assumptions C252_marginalize.
