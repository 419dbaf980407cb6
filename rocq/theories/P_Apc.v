(** APC: latent statistics, objective, trainer, joint encoder. *)
From Coq Require Import List Arith Bool Reals Lia Lra Permutation FunctionalExtensionality.
From Verif Require Import Base ScopeModel ScopeProofs CircuitModel CircuitSpec CircuitBasics CircuitEval Integral CircuitMarg CircuitExamples
  LeafModel LeafSpec CtxModel EmModel FactorModel StackModel StackSpec StackProofs StackRatTop StackEinSpec StackEin StackEinTop P_Rat P_Einet
  ApcModel ApcSpec ApcNorm ApcDisc ApcTop ApcTrainModel ApcTrainSpec ApcTrainProofs ApcFit ApcEncModel ApcEncProofs.
Import ListNotations.
Local Open Scope R_scope.

(** ** C293: the latent statistics are those of the leaf distribution the latent entry is
    drawn from: its mean, its variance, its divergence from the family's prior *)
Theorem C293_latent_stats : forall eps r s f, 0 < eps -> unclamped eps r -> rec_fam r = Some f -> entry_stats eps r = Ok s ->
  mean_of f (zs_mu s) /\ (exists v, var_of f v /\ (eps <= v -> exp (zs_logvar s) = v)) /\ kl_of f (prior f) (zs_kld s).
Proof. exact stats_exact. Qed.
Print Assumptions C293_latent_stats.
Lemma softmax_two k : softmax 2 (fun _ => 0) k = 1 / 2.
Proof. unfold softmax. cbn [bsum]. rewrite exp_0. lra. Qed.
Lemma sigmoid_zero : sigmoid 0 = 1 / 2.
Proof. unfold sigmoid. rewrite Ropp_0, exp_0. lra. Qed.
Example C293_ex : forall r, In r [ZNormalLog 2 1; ZNormalScale 2 (1/2); ZBernoulli 0; ZBinomial 7 0; ZCategorical 2 (fun _ => 0)] ->
  unclamped (1/100) r /\ (exists f, rec_fam r = Some f) /\ exists s, entry_stats (1/100) r = Ok s.
Proof.
  intros r [<-|[<-|[<-|[<-|[<-|[]]]]]]; cbn [unclamped rec_fam entry_stats Nat.eqb]; (split; [|split; eexists; reflexivity]).
  - exact I.
  - split; [lra|]. cbn. lra.
  - rewrite sigmoid_zero. lra.
  - rewrite sigmoid_zero. lra.
  - split; [lia|]. intros k _. rewrite softmax_two. lra.
Qed.

(** ** C294: the KL term of a sample is the divergence between the joint distribution of
    its latent row and the joint prior *)
Theorem C294_row_kl : forall eps rs ss k fs, 0 < eps -> Forall (unclamped eps) rs ->
  row_stats eps rs = Ok (ss, k) -> map rec_fam rs = map Some fs -> kl_rows fs k.
Proof. intros eps rs ss k fs He U. exact (row_exact eps rs He U ss k fs). Qed.
Print Assumptions C294_row_kl.
Example C294_ex : exists ss k,
  let rs := [ZNormalScale 2 (1/2); ZBernoulli 0; ZCategorical 2 (fun _ => 0)] in
  Forall (unclamped (1/100)) rs /\ row_stats (1/100) rs = Ok (ss, k) /\
  map rec_fam rs = map Some [FNormal 2 (ln (1/2)); FBernoulli 0; FCategorical 2 (fun _ => 0)].
Proof.
  eexists. eexists. cbv zeta. split; [|split; reflexivity].
  repeat (apply Forall_cons; [apply C293_ex; cbn; tauto|]). constructor.
Qed.

(** ** C295: the latent value decoded deterministically is a mode of its distribution *)
Theorem C295_decode_mode : forall eps r s f, resolvable eps r -> rec_fam r = Some f -> entry_stats eps r = Ok s -> is_mode f (zs_decode s).
Proof. exact decode_mode. Qed.
Print Assumptions C295_decode_mode.
Example C295_ex : forall r, In r [ZNormalLog 2 1; ZBernoulli (-3); ZBinomial 7 20; ZCategorical 3 (fun k => INR k)] ->
  resolvable (1/100) r /\ (exists f, rec_fam r = Some f) /\ exists s, entry_stats (1/100) r = Ok s.
Proof.
  intros r [<-|[<-|[<-|[<-|[]]]]]; cbn [rec_fam entry_stats Nat.eqb]; (split; [|split; eexists; reflexivity]); unfold resolvable; (split; [lra|]); cbn; try exact I; lra.
Qed.

(** ** C296: the KL term of a sample is never negative *)
Theorem C296_kl_nonneg : forall eps rs ss k, 0 < eps < 1 / 2 -> row_stats eps rs = Ok (ss, k) -> 0 <= k.
Proof. intros eps rs ss k He. exact (row_nonneg eps rs He ss k). Qed.
Print Assumptions C296_kl_nonneg.
(** far below the clamps, with probabilities instead of logits *)
Example C296_ex : exists ss k, row_stats (1/100) [ZBernoulliP 0; ZCategoricalP 3 (fun _ => 0); ZBinomialP 4 1; ZNormalScale (-1) 0] = Ok (ss, k).
Proof. eexists. eexists. reflexivity. Qed.

(** ** C297: the batch objective is the weighted sum of the batch means of the samples'
    reconstruction, divergence and likelihood terms, and is defined when they are *)
Theorem C297_objective : forall X Z (c : apc_config) (n : apc_net X Z) xs m, xs <> [] ->
  loss_components X Z c n xs = Ok m <-> exists ts, Forall2 (sample_terms c n) xs ts /\ m = metrics_of c ts.
Proof.
  intros X Z c n xs m H. rewrite (loss_rows X Z c n xs H). split.
  - destruct (all_rows X Z c n xs) as [ts|] eqn:E; [|discriminate]. intros Q. injection Q as <-.
    exists ts. split; [|reflexivity]. now apply all_rows_spec.
  - intros (ts & A & ->). apply all_rows_spec in A. now rewrite A.
Qed.
Print Assumptions C297_objective.
(** one pixel, the latent is the pixel, the decoder adds one *)
Definition ex_net : apc_net R R := mkNet R R (fun x => mkEnc R x (Some (2, x))) (fun z => [z + 1]) (fun x => [x]) (fun x z => x + z) (fun x => x).
Definition ex_cfg : apc_config := mkCfg 1 3 5 false false true.
Example C297_ex : loss_components R R ex_cfg ex_net [1; 3] = Ok (mkMetrics 1 2 (-4) (-13)).
Proof.
  apply C297_objective; [discriminate|]. exists [mkTerms 1 2 (-2); mkTerms 1 2 (-6)]. split.
  - repeat constructor; cbn [ex_cfg ex_net w_rec w_kld w_nll rec_bce decode_mpe nll_joint enc dec flat joint_ll e_z e_stats t_rec t_kld t_nll];
      try discriminate; try (destruct (Rlt_dec 0 1); [|lra]); try (destruct (Rlt_dec 0 3); [|lra]); try (destruct (Rlt_dec 0 5); [|lra]);
      try (eexists; split; [reflexivity|]; split; [split; [reflexivity|discriminate]|]; cbn; ring); try (eexists; reflexivity); lra.
  - unfold metrics_of, mean. cbn. f_equal; field.
Qed.

(** ** C298: evaluating a data set does not depend on how it is cut into batches *)
Theorem C298_evaluate_batching : forall X Z (c : apc_config) (n : apc_net X Z) m l,
  (forall bs, bs <> [] -> (forall b, In b bs -> b <> []) -> concat bs = l ->
     snd (evaluate unit (list X) (fun _ _ b => loss_components X Z c n b) (@length X) m bs) = loss_components X Z c n l) /\
  (forall k, (0 < k)%nat -> l <> [] ->
     snd (evaluate unit (list X) (fun _ _ b => loss_components X Z c n b) (@length X) m (batches k l)) = loss_components X Z c n l).
Proof.
  intros X Z c n m l.
  assert (A : forall bs, bs <> [] -> (forall b, In b bs -> b <> []) -> concat bs = l ->
     snd (evaluate unit (list X) (fun _ _ b => loss_components X Z c n b) (@length X) m bs) = loss_components X Z c n l)
    by (intros bs H1 H2 <-; now apply evaluate_whole).
  split; [exact A|]. intros k Hk Hl. destruct (batches_concat k l Hk) as [E B]. apply A; [|intros b Hb; apply (B b Hb)|exact E].
  intros Q. rewrite Q in E. cbn in E. now symmetry in E.
Qed.
Print Assumptions C298_evaluate_batching.
Example C298_ex : snd (evaluate unit (list R) (fun _ _ b => loss_components R R ex_cfg ex_net b) (@length R) (mkApc unit true tt) [[1]; [3; 1]])
  = loss_components R R ex_cfg ex_net [1; 3; 1] /\ batches 2 [1; 3; 1] = [[1; 3]; [1]].
Proof. split; [apply C298_evaluate_batching; [discriminate|intros b [<-|[<-|[]]]; discriminate|reflexivity]|reflexivity]. Qed.

(** ** C299: training reports, epoch by epoch, the size-weighted means of the metrics of
    the batches trained on, and the validation metrics of the parameters reached *)
Theorem C299_fit : forall P B (loss : bool -> P -> B -> result metrics) (update : P -> B -> result P) (bsize : B -> nat) n train val m,
  (forall m' rows, fit P B loss update bsize n train val m = (m', Ok rows) ->
     exists ps : nat -> P, ps 0%nat = params P m /\ ps n = params P m' /\ length rows = n /\
     forall i, (i < n)%nat -> exists ms r, nth_error rows i = Some r /\
       steps P B loss update (ps i) (train i) ms (ps (S i)) /\
       h_epoch r = S i /\ h_train r = mean_metrics (map bsize (train i)) ms /\
       match val with
       | Some v => exists x, h_val r = Some x /\ forall fl, snd (evaluate P B loss bsize (mkApc P fl (ps (S i))) (v i)) = Ok x
       | None => h_val r = None
       end) /\
  ((forall fl p b, loss fl p b <> Err) -> (forall p b, update p b <> Err) ->
   (forall i, (i < n)%nat -> exists b, In b (train i) /\ (0 < bsize b)%nat) ->
   (forall v i, val = Some v -> (i < n)%nat -> exists b, In b (v i) /\ (0 < bsize b)%nat) ->
   exists rows m', fit P B loss update bsize n train val m = (m', Ok rows)).
Proof.
  intros P B loss update bsize n train val m. split.
  - intros m' rows E. destruct (fit_from_ok P B loss update bsize train val n 0 m m' rows E) as (ps & A & A' & L & Q).
    exists ps. repeat (split; [assumption|]). intros i Hi. destruct (Q i Hi) as (ms & r & Q1 & Q2 & Q3 & Q4 & _ & Q5).
    exists ms, r. repeat (split; [assumption|]). exact Q5.
  - intros H1 H2 H3 H4.
    assert (HS : forall l, (exists b, In b l /\ (0 < bsize b)%nat) -> has_samples B bsize l).
    { unfold has_samples. intros l (b & Hb & Pb). induction l as [|a l IH]; [contradiction|]. cbn [map fold_right].
      destruct Hb as [->|Hb]; [|specialize (IH Hb)]; lia. }
    destruct (fit_from_total P B loss update bsize train val (conj H1 H2) n 0) with (m := m) as (rows & m' & E).
    + intros i Hi. apply HS, H3. lia.
    + intros v i Ev Hi. apply HS, (H4 v i Ev). lia.
    + exists rows, m'. exact E.
Qed.
Print Assumptions C299_fit.
(** the parameter counts the updates; the loss reports it *)
Definition ex_loss (fl : bool) (p : nat) (b : list R) : result metrics := Ok (mkMetrics (INR p) 0 0 (INR p)).
Definition ex_update (p : nat) (b : list R) : result nat := Ok (S p).
Example C299_ex : exists t v,
  fit nat (list R) ex_loss ex_update (@length R) 2 (fun _ => [[1; 2]; [3]]) (Some (fun _ => [[4]])) (mkApc nat true 0%nat)
    = (mkApc nat true 4%nat, Ok [mkRow 1 (mkMetrics t 0 0 t) (Some (mkMetrics 2 0 0 2)); mkRow 2 v (Some (mkMetrics 4 0 0 4))]) /\ t = 1 / 3.
Proof.
  exists (1/3). eexists. split; [|reflexivity]. unfold fit. cbn.
  repeat (f_equal; try reflexivity); try field; try lra.
Qed.

(** ** C300: training data may be given as any iterable of batches *)
Theorem C300_any_iterable_refuted : ~ (forall P B (loss : bool -> P -> B -> result metrics) (update : P -> B -> result P) (bsize : B -> nat) n l m,
  (forall fl p b, loss fl p b <> Err) -> (forall p b, update p b <> Err) -> (exists b, In b l /\ (0 < bsize b)%nat) ->
  snd (fit P B loss update bsize n (generator B l) None m) <> Err).
Proof.
  intros H. apply (H nat (list R) ex_loss ex_update (@length R) 2%nat [[1]] (mkApc nat true 0%nat)); try discriminate.
  - exists [1]. split; [now left|cbn; lia].
  - apply fit_generator. lia.
Qed.
Print Assumptions C300_any_iterable_refuted.
(** it fails for every generator, also as validation data *)
Theorem C300_generators_fail : forall P B (loss : bool -> P -> B -> result metrics) (update : P -> B -> result P) (bsize : B -> nat) n l, (2 <= n)%nat ->
  (forall val m, snd (fit P B loss update bsize n (generator B l) val m) = Err) /\
  (forall train m, snd (fit P B loss update bsize n train (Some (generator B l)) m) = Err).
Proof. intros. split; intros; [now apply fit_generator|now apply fit_val_generator]. Qed.
Print Assumptions C300_generators_fail.
(** the same batches as a list, or one epoch of the generator, work *)
Example C300_ex : (exists rows, snd (fit nat (list R) ex_loss ex_update (@length R) 2 (fun _ => [[1]]) None (mkApc nat true 0%nat)) = Ok rows) /\
  exists rows, snd (fit nat (list R) ex_loss ex_update (@length R) 1 (generator (list R) [[1]]) None (mkApc nat true 0%nat)) = Ok rows.
Proof. split; eexists; reflexivity. Qed.

(** ** C301: evaluation leaves the model as it was, if no batch raises *)
Theorem C301_evaluate_pure : forall P B (loss : bool -> P -> B -> result metrics) (bsize : B -> nat) (m : apc_model P) bs,
  ((forall b, In b bs -> loss false (params P m) b <> Err) -> fst (evaluate P B loss bsize m bs) = m) /\
  params P (fst (evaluate P B loss bsize m bs)) = params P m.
Proof. intros. split; [apply evaluate_keeps|apply evaluate_params]. Qed.
Print Assumptions C301_evaluate_pure.
Example C301_ex : fst (evaluate nat (list R) ex_loss (@length R) (mkApc nat true 3%nat) [[1]; [2; 3]]) = mkApc nat true 3%nat.
Proof. apply C301_evaluate_pure. discriminate. Qed.

(** ** C302: evaluation restores training mode in any case *)
Theorem C302_mode_restored_refuted : ~ (forall X Z (c : apc_config) (n : apc_net X Z) m bs,
  training unit (fst (evaluate unit (list X) (fun _ _ b => loss_components X Z c n b) (@length X) m bs)) = training unit m).
Proof.
  intros H. specialize (H R R ex_cfg (mkNet R R (fun x => mkEnc R x (Some (2, x))) (fun z => []) (fun x => [x]) (fun x z => x + z) (fun x => x))
    (mkApc unit true tt) [[1]]).
  rewrite (evaluate_raise _ _ _ _ _ _ [1]) in H; [discriminate H|now left|].
  unfold loss_components. cbn. unfold pos. repeat (destruct (Rlt_dec 0 _); [|lra]). reflexivity.
Qed.
Print Assumptions C302_mode_restored_refuted.
(** whenever a batch raises *)
Theorem C302_raise : forall P B (loss : bool -> P -> B -> result metrics) (bsize : B -> nat) (m : apc_model P) bs b,
  In b bs -> loss false (params P m) b = Err -> evaluate P B loss bsize m bs = (mkApc P false (params P m), Err).
Proof. exact evaluate_raise. Qed.
Print Assumptions C302_raise.

(** ** C303: the joint encoder describes one normalised joint distribution: its likelihood
    of a data row is the joint density summed over the latent row *)
Theorem C303_joint_encoder : forall nx nz xl zl c p d e D,
  leaf_okb xl = true -> leaf_okb zl = true -> l_rep xl = ei_reps c -> l_rep zl = ei_reps c ->
  mk_joint_encoder nx nz xl zl c p d = Ok e -> draw_ok (nx + nz) (ei_depth c) d ->
  leaf_norm D xl -> leaf_norm D zl ->
  exists (f : list R -> list R -> R) (g : list R -> R),
    (forall x z, 0 <= f x z) /\ (forall x, 0 <= g x) /\
    (forall x z, length x = nx -> length z = nz ->
       finite_on xl (evidence_row e (Some (map Some x)) (Some (map Some z))) -> finite_on zl (evidence_row e (Some (map Some x)) (Some (map Some z))) ->
       0 < f x z /\ joint_log_likelihood e (map Some x) (map Some z) = Ok (FFin (ln (f x z)))) /\
    (forall x, length x = nx ->
       finite_on xl (evidence_row e (Some (map Some x)) None) -> finite_on zl (evidence_row e (Some (map Some x)) None) ->
       0 < g x /\ log_likelihood_x e (map Some x) = Ok (FFin (ln (g x)))) /\
    (forall x, length x = nx -> sums_rows (map D (seq nx nz)) (f x) (g x)) /\
    sums_rows (map D (seq 0 nx)) g 1.
Proof. exact enc_main. Qed.
Print Assumptions C303_joint_encoder.
Definition ex_x : leaf := bern (seq 0 2) 2 1 (fun _ c _ => if Nat.eqb c 0 then 1/4 else 1/2).
Definition ex_z : leaf := bern (seq 2 1) 2 1 (fun _ c _ => if Nat.eqb c 0 then 1/3 else 1/2).
Definition ex_ein : ein_cfg := mkEin 1 2 2 1 1 Linsum true.
Example C303_ex : exists e, mk_joint_encoder 2 1 ex_x ex_z ex_ein zero_ep (plain_draw 3 1) = Ok e /\
  leaf_okb ex_x = true /\ leaf_okb ex_z = true /\ l_rep ex_x = ei_reps ex_ein /\ l_rep ex_z = ei_reps ex_ein /\ draw_ok (2 + 1) 1 (plain_draw 3 1) /\
  leaf_norm (fun _ => bits) ex_x /\ leaf_norm (fun _ => bits) ex_z /\
  finite_on ex_x (evidence_row e (Some (map Some [0; 1])) (Some (map Some [1]))) /\ finite_on ex_z (evidence_row e (Some (map Some [0; 1])) (Some (map Some [1]))).
Proof.
  assert (OKx : leaf_okb ex_x = true) by (apply bern_ok; try lia; [discriminate|apply seq_NoDup]).
  assert (OKz : leaf_okb ex_z = true) by (apply bern_ok; try lia; [discriminate|apply seq_NoDup]).
  assert (HL : leaves_ok [MLeaf ex_x; MLeaf ex_z] (MCat false (mkScope [0; 1; 2]%nat []) [MLeaf ex_x; MLeaf ex_z]) (mkShape 3 2 1) (ei_reps ex_ein)).
  { constructor; try reflexivity.
    - constructor; [now constructor|constructor; [now constructor|constructor]].
    - cbn. repeat split. discriminate.
    - left. reflexivity. }
  destruct (ein_built _ ex_ein zero_ep (plain_draw 3 1) _ _ HL) as (st & de & E & _).
  { unfold ein_fine, ex_ein. cbn. lia. }
  exists (mkJenc 2 1 st).
  split. { unfold mk_joint_encoder. change (mkEin 1 _ _ _ _ _ true) with ex_ein. rewrite E. reflexivity. }
  repeat (split; [first [assumption | reflexivity | apply plain_ok | apply bern_norm; intros; destruct (Nat.eqb _ _); lra]|]).
  split; intros f ch r Hf _ _; cbn in Hf; unfold leaf_score, evidence_row; cbn [ex_x ex_z bern l_scope query l_lp block je_nx je_nz map app].
  - assert (f = 0 \/ f = 1)%nat as [->| ->] by lia; cbn [seq nth]; unfold bern_lp; destruct (Nat.eqb ch 0);
      repeat (destruct (Req_EM_T _ _); [|try lra]); try lra; rewrite lfrom_Fin by lra; discriminate.
  - replace f with 0%nat by lia; cbn [seq nth]; unfold bern_lp; destruct (Nat.eqb ch 0);
      repeat (destruct (Req_EM_T _ _); [|try lra]); try lra; rewrite lfrom_Fin by lra; discriminate.
Qed.
