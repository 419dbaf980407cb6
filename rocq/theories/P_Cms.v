(** Properties C208-C220: continuous mixtures (spflow/zoo/cms). *)
From Coq Require Import List Arith ZArith Bool Reals Lia Lra Permutation.
From Verif Require Import Base ScopeModel CircuitModel CircuitSpec CircuitEval Integral LeafModel LeafTop SampleModel SampleSpec ExpUnique CltModel CltSpec
  CmsModel CmsSpec CmsProofs CmsTop CmsFit CmsTree CmsDraw.
Import ListNotations.
Local Open Scope R_scope.

(** C208: the compiled circuit scores every row exactly as training did, with the
    mixture density of the decoded parameters *)
Theorem C208_compiled_is_trained : forall mode fm F n out w m rows ls,
  family_ok fm -> (1 <= F)%nat -> weights_ok n w ->
  compile_factorized mode fm F n out w = Ok m -> component_ll fm F out rows = Ok ls ->
  length ls = length rows /\
  forall b x cl, nth_error rows b = Some x -> nth_error ls b = Some cl ->
    loglik m x 0 0 0 = mixture_ll n w cl /\ prob m x 0 0 0 = density fm F n out w x.
Proof. exact compiled_is_trained. Qed.
Print Assumptions C208_compiled_is_trained.

(** rows are accepted by training exactly when every leaf of the compiled circuit
    accepts them, i.e. when every cell is missing or in the range of the family *)
Theorem C208_accepts : forall fm F n out x, family_ok fm -> (1 <= n)%nat ->
  ((exists ls, component_ll fm F out [x] = Ok ls) <-> forall f, (f < F)%nat -> admissible fm (x f)) /\
  ((forall i j l, (i < n)%nat -> (j < F)%nat -> comp_leaf fm F (out i) j = Ok l -> validates l x = true) <->
   forall f, (f < F)%nat -> admissible fm (x f)).
Proof.
  intros fm F n out x OK Hn. assert (NC : fm <> Catg None) by (intros ->; exact OK).
  assert (CL : forall i j, comp_leaf fm F (out i) j = Ok (fleaf_at fm F (out i) j)) by (intros i j; unfold comp_leaf; now rewrite comp_fam_ok by exact NC).
  split; split.
  - intros (ls & E) f Hf. destruct (component_ll_inv _ _ _ _ _ E) as (_ & A & _). apply A; [now left|exact Hf].
  - intros A. eexists. apply component_ll_ok; [exact OK|]. intros y f [<-|[]] Hf. now apply A.
  - intros H f Hf. apply (leaf_validates fm F (out 0%nat) f x OK). apply (H 0%nat f); [lia|exact Hf|apply CL].
  - intros A i j l _ Hj E. rewrite CL in E. injection E as <-. apply leaf_validates; [exact OK|]. now apply A.
Qed.
Print Assumptions C208_accepts.

(** C209: which mixtures are compiled *)
Theorem C209_accepted : forall mode fm F n out w,
  (exists m, compile_factorized mode fm F n out w = Ok m) <->
  (1 <= n)%nat /\ (1 <= F)%nat /\ fm <> Catg None /\ (forall i, (i < n)%nat -> 0 < w i) /\ Rabs (bsum n w - 1) <= / 10 ^ 6.
Proof. exact compile_iff. Qed.
Print Assumptions C209_accepted.

(** C210: a compiled mixture is a probability distribution, even when the weights
    sum to one only within the tolerance *)
Theorem C210_normalised : forall mode fm F n out w m, family_ok fm -> compile_factorized mode fm F n out w = Ok m ->
  forall x, sums_over (fun _ => family_range fm) (seq 0 F) (fun y => prob m y 0 0 0) x 1.
Proof. exact compile_normalised. Qed.
Print Assumptions C210_normalised.

Definition md (_ : fam) : R := 0.
Lemma half_close n : n = 2%nat -> Rabs (bsum n half - 1) <= / 10 ^ 6.
Proof.
  intros ->. unfold half. cbn [bsum]. replace (0 + 1 / 2 + 1 / 2 - 1) with 0 by field. rewrite Rabs_R0. apply Rlt_le, Rinv_0_lt_compat. lra.
Qed.
Lemma half_ok : weights_ok 2 half.
Proof.
  split; [|unfold half; cbn [bsum]; field]. intros i _. unfold half. assert (1 < 10 ^ 30) by (apply Rlt_pow_R1; [lra|lia]).
  apply Rlt_le. assert (/ 10 ^ 30 < / 2); [|lra]. apply Rinv_lt_contravar; [lra|]. apply Rlt_le_trans with (10 ^ 1); [lra|]. apply Rle_pow; [lra|lia].
Qed.
Example C208_C210_nonvacuous : exists m ls, compile_factorized md (Catg (Some 3%nat)) 2 2 (fun i k => INR (i + k)) half = Ok m /\
  component_ll (Catg (Some 3%nat)) 2 (fun i k => INR (i + k)) [fun f => if Nat.eqb f 0 then Some (INR 2) else None] = Ok ls /\ weights_ok 2 half.
Proof.
  destruct (proj2 (C209_accepted md (Catg (Some 3%nat)) 2 2 (fun i k => INR (i + k)) half)) as (m & E).
  { repeat split; try lia; try discriminate; [intros; unfold half; lra|now apply half_close]. }
  exists m. eexists. split; [exact E|]. split; [apply component_ll_ok; [cbn; lia|]|exact half_ok].
  intros x f [<-|[]] Hf. destruct (Nat.eqb f 0); cbn; [|exact I]. exists 2%nat. split; [lia|reflexivity].
Qed.

(** C211: the learner (without latent optimisation) returns the model of the best of
    the evaluated epochs, the earliest one among equals; training stops early only
    after [patience] epochs without improvement; without validation data and patience
    the model of the last epoch is returned *)
Theorem C211_learner : forall St mode (epoch_step : nat -> St -> St) dec fm F ld points bs epochs patience data val s0 m,
  family_ok fm -> INR points <= 10 ^ 30 -> (match val with Some v => v | None => data end) <> [] ->
  learn_factorized mode epoch_step dec fm F ld points bs epochs patience data val s0 = Ok m ->
  let rows := match val with Some v => v | None => data end in
  let model e mi := compile_factorized mode fm F points (dec (after epoch_step s0 e)) (fun _ : nat => 1 / INR points) = Ok mi in
  (forall x f, In x data \/ In x rows -> (f < F)%nat -> admissible fm (x f)) /\
  exists M j, model j m /\ (1 <= j <= M)%nat /\ (M <= epochs)%nat /\
    (val <> None \/ (0 < patience)%nat ->
      (forall i mi, (1 <= i <= M)%nat -> model i mi -> mean_ll mi rows <= mean_ll m rows) /\
      (forall i mi, (1 <= i < j)%nat -> model i mi -> mean_ll mi rows < mean_ll m rows) /\
      ((M < epochs)%nat -> (0 < patience)%nat /\ M = (j + patience)%nat)) /\
    (val = None -> patience = 0%nat -> M = epochs /\ j = epochs).
Proof. intros St mode epoch_step dec fm F ld points bs epochs patience data val s0 m. exact (learn_spec mode epoch_step dec fm F ld points bs epochs patience data val s0 m). Qed.
Print Assumptions C211_learner.
(** every epoch has a model, so the comparisons above are with existing models *)
Theorem C211_models : forall St mode (epoch_step : nat -> St -> St) dec fm F ld points bs epochs patience data val s0 m,
  learn_factorized mode epoch_step dec fm F ld points bs epochs patience data val s0 = Ok m ->
  forall e, exists mi, compile_factorized mode fm F points (dec (after epoch_step s0 e)) (fun _ : nat => 1 / INR points) = Ok mi.
Proof.
  intros St mode epoch_step dec fm F ld points bs epochs patience data val s0 m E e. unfold learn_factorized in E.
  destruct (_ || _)%bool; [discriminate|]. unfold rqmc_weights in E. destruct (Nat.ltb points 1); [discriminate|]. destruct (Nat.ltb ld 1); [discriminate|]. cbn [bind] in E.
  destruct (component_ll _ _ _ data); cbn [bind] in E; [|discriminate].
  destruct (component_ll _ _ _ _); cbn [bind] in E; [|discriminate].
  apply compile_iff. exact (proj1 (compile_iff _ _ _ _ _ _) (ex_intro _ m E)).
Qed.
Print Assumptions C211_models.
Example C211_nonvacuous : exists m, learn_factorized md (fun e s => s + INR e) (fun s i k => s) Bern 1 2 2 8 5 1 [fun _ => Some 1] None 0 = Ok m.
Proof.
  unfold learn_factorized. cbn [Nat.ltb Nat.leb orb]. unfold rqmc_weights. cbn [Nat.ltb Nat.leb bind].
  assert (C : component_ll Bern 1 (fun _ _ => 0) [fun _ => Some 1] = Ok (map (fun (x : row) i => bsum 1 (fun f => cell_ll Bern 1 (fun _ => 0) f (x f))) [fun _ => Some 1])).
  { apply component_ll_ok; [exact I|]. intros x f [<-|[]] _. now right. }
  rewrite C. cbn [bind]. apply C209_accepted. repeat split; try lia; try discriminate.
  - intros i _. unfold Rdiv. rewrite Rmult_1_l. apply Rinv_0_lt_compat. cbn. lra.
  - rewrite bsum_const. replace (INR 2 * (1 / INR 2) - 1) with 0 by (cbn; field). rewrite Rabs_R0. apply Rlt_le, Rinv_0_lt_compat. lra.
Qed.

(** C212: early stopping on its own, for any evaluation score that is a number in the
    first epoch (NaN later is allowed): the returned state is that of an epoch whose
    score is maximal among the evaluated epochs 1..M; with a positive patience at most
    [patience] epochs without a new best follow it, and only exactly that many when
    training stops early *)
Theorem C212_early_stopping : forall St (epoch_step : nat -> St -> St) (score : St -> option R) s0 has_val patience epochs v,
  (1 <= epochs)%nat -> score (after epoch_step s0 1) = Some v -> has_val = true \/ (0 < patience)%nat ->
  exists M j best, fit St epoch_step score has_val patience epochs s0 = after epoch_step s0 j /\
    (1 <= j <= M)%nat /\ (M <= epochs)%nat /\ score (after epoch_step s0 j) = Some best /\
    (forall i u, (1 <= i <= M)%nat -> score (after epoch_step s0 i) = Some u -> u <= best) /\
    (forall i u, (1 <= i < j)%nat -> score (after epoch_step s0 i) = Some u -> u < best) /\
    ((M < epochs)%nat -> (0 < patience)%nat /\ M = (j + patience)%nat) /\
    ((0 < patience)%nat -> (M <= j + patience)%nat).
Proof.
  intros St epoch_step score s0 has_val patience epochs v He Hv HM.
  destruct (train_best St epoch_step score s0 patience epochs v He Hv) as (M & j & E & (O1 & O2 & R & O4 & O5 & O6)).
  pose proof R as (b & Eb & Rb). exists M, j, b. split.
  - unfold fit. assert ((has_val || Nat.ltb 0 patience)%bool = true) as ->; [|exact E]. destruct HM as [->|HP]; [reflexivity|].
    apply orb_true_iff. right. now apply Nat.ltb_lt.
  - split; [exact O1|]. split; [exact O2|]. split; [exact Eb|]. split; [|split; [exact Rb|split; [exact O5|intros HP; now apply O6]]].
    exact (no_record_max St epoch_step score s0 j M b (proj1 O1) R Eb O4).
Qed.
Print Assumptions C212_early_stopping.
(** it does not stop earlier than that: before the last epoch, every window of
    [patience] epochs contains one whose score beats all earlier ones *)
Theorem C212_patience : forall St (epoch_step : nat -> St -> St) (score : St -> option R) s0 patience epochs v,
  (1 <= epochs)%nat -> score (after epoch_step s0 1) = Some v -> (0 < patience)%nat ->
  exists M j, latent_opt St epoch_step score patience epochs s0 = after epoch_step s0 j /\ (1 <= j <= M)%nat /\ (M <= epochs)%nat /\
    (M = epochs \/ M = (j + patience)%nat) /\
    forall a, (1 <= a)%nat -> (a + patience < M)%nat -> exists i u, (a < i <= a + patience)%nat /\ score (after epoch_step s0 i) = Some u /\
      forall k u', (1 <= k < i)%nat -> score (after epoch_step s0 k) = Some u' -> u' < u.
Proof.
  intros St epoch_step score s0 patience epochs v He Hv HP.
  destruct (train_best St epoch_step score s0 patience epochs v He Hv) as (M & j & E & (O1 & O2 & R & O4 & O5 & O6)).
  exists M, j. split; [exact E|]. split; [exact O1|]. split; [exact O2|]. split.
  - destruct (Nat.eq_dec M epochs); [now left|right]. apply O5. lia.
  - intros a Ha Hm. destruct (proj2 (O6 HP) a Ha Hm) as (i & Hi & (u & Eu & Ru)). eauto.
Qed.
Print Assumptions C212_patience.
(** without validation data and with patience 0 the last epoch's state is returned *)
Theorem C212_plain : forall St (epoch_step : nat -> St -> St) (score : St -> option R) s0 epochs,
  fit St epoch_step score false 0 epochs s0 = after epoch_step s0 epochs.
Proof. intros. unfold fit. cbn [Nat.ltb Nat.leb orb]. exact (train_plain St epoch_step score s0 0 epochs 0 0). Qed.
Print Assumptions C212_plain.
Lemma rlt_INR a b : (a < b)%nat -> rlt (INR a) (INR b) = true.
Proof. intros H. unfold rlt. destruct (Rlt_dec _ _) as [|N]; [reflexivity|]. exfalso. apply N. now apply lt_INR. Qed.
Lemma rlt_INR_false a b : (b <= a)%nat -> rlt (INR a) (INR b) = false.
Proof. intros H. unfold rlt. destruct (Rlt_dec _ _) as [C|N]; [|reflexivity]. exfalso. apply INR_lt in C. lia. Qed.
(** scores 3, 5, 4, 4, 9, ...: with patience 2 training stops after epoch 4 and
    returns epoch 2 *)
Example C212_ex : fit nat (fun e s => S s) (fun s => Some (INR (nth s [0; 3; 5; 4; 4; 9; 9] 0)%nat)) true 2 6 0%nat = 2%nat.
Proof.
  unfold fit. cbn [orb train Nat.ltb Nat.leb andb nth fgt].
  rewrite (rlt_INR 3 5) by lia. rewrite (rlt_INR_false 5 4) by lia. reflexivity.
Qed.

(** C213: a NaN score in the first evaluated epoch is never replaced ... *)
Theorem C213_nan_first : forall St (epoch_step : nat -> St -> St) (score : St -> option R) s0 has_val patience epochs,
  (1 <= epochs)%nat -> score (after epoch_step s0 1) = None -> has_val = true \/ (0 < patience)%nat ->
  fit St epoch_step score has_val patience epochs s0 = after epoch_step s0 1.
Proof.
  intros St epoch_step score s0 has_val patience epochs He Hv HM. unfold fit.
  assert ((has_val || Nat.ltb 0 patience)%bool = true) as ->.
  { destruct HM as [->|HP]; [reflexivity|]. apply orb_true_iff. right. now apply Nat.ltb_lt. }
  destruct epochs as [|n]; [lia|]. cbn [train]. cbv zeta. change (epoch_step 0%nat s0) with (after epoch_step s0 1). rewrite Hv.
  exact (train_nan St epoch_step score s0 patience n 1 0).
Qed.
Print Assumptions C213_nan_first.
(** ... so the claim that the returned state has the best score of the evaluated
    epochs is false (refuted): here the first epoch scores NaN, all later ones 5, and
    training with the default patience returns the first *)
Theorem C213_best_refuted : exists St (epoch_step : nat -> St -> St) (score : St -> option R) s0,
  score (fit St epoch_step score true 15 300 s0) = None /\
  forall i, (2 <= i)%nat -> score (after epoch_step s0 i) = Some 5.
Proof.
  exists nat, (fun _ s => S s), (fun s => if Nat.eqb s 1 then None else Some 5), 0%nat.
  assert (A : forall i, after (fun _ s : nat => S s) 0%nat i = i) by (induction i as [|i IH]; cbn [after]; congruence). split.
  - rewrite (C213_nan_first nat (fun _ s => S s) _ 0%nat true 15 300); [reflexivity|lia|reflexivity|now left].
  - intros i Hi. rewrite A. destruct (Nat.eqb_spec i 1); [lia|reflexivity].
Qed.
Print Assumptions C213_best_refuted.
(** it happens: empty validation data score NaN *)
Example C213_empty_validation : forall fm F n w out, family_ok fm -> eval_score fm F n w out [] = Ok None.
Proof. intros fm F n w out OK. unfold eval_score. rewrite component_ll_ok; [reflexivity|exact OK|intros x f []]. Qed.

(** C214: an epoch visits every row exactly once, in batches of [batch_size] rows of
    which only the last may be smaller *)
Theorem C214_minibatches : forall n size perm, (1 <= n)%nat -> (1 <= size)%nat -> Permutation perm (seq 0 n) ->
  Permutation (concat (minibatches n size perm)) (seq 0 n) /\
  forall b, (b < length (minibatches n size perm))%nat ->
    length (nth b (minibatches n size perm) []) = Nat.min size (n - b * size) /\ (b * size < n)%nat.
Proof. exact minibatches_spec. Qed.
Print Assumptions C214_minibatches.
Example C214_ex : minibatches 5 2 [3; 0; 4; 1; 2]%nat = [[3; 0]; [4; 1]; [2]]%nat.
Proof. reflexivity. Qed.

(** C215: integration points *)
Theorem C215_weights : forall n d,
  ((exists w, rqmc_weights n d = Ok w) <-> (1 <= n)%nat /\ (1 <= d)%nat) /\
  forall w, rqmc_weights n d = Ok w -> bsum n w = 1 /\ forall i, 0 < w i.
Proof.
  intros n d. unfold rqmc_weights. destruct (Nat.ltb_spec n 1) as [H1|H1]; [split; [split; [intros (w & E); discriminate|lia]|discriminate]|].
  destruct (Nat.ltb_spec d 1) as [H2|H2]; [split; [split; [intros (w & E); discriminate|lia]|discriminate]|].
  split; [split; [auto|eauto]|]. intros w E. injection E as <-. assert (0 < INR n) as P by (apply lt_0_INR; lia). split.
  - rewrite bsum_const. field. lra.
  - intros i. unfold Rdiv. rewrite Rmult_1_l. now apply Rinv_0_lt_compat.
Qed.
Print Assumptions C215_weights.
(** after shifting, the points lie in [eps, 1 - eps]; a point not clamped is the
    shifted point modulo one *)
Theorem C215_unit : forall eps u shift, 0 <= eps <= 1 / 2 ->
  eps <= rqmc_unit eps u shift <= 1 - eps /\
  (eps <= frac_part (u + shift) <= 1 - eps -> exists k : Z, u + shift = rqmc_unit eps u shift + IZR k).
Proof.
  intros eps u shift He. unfold rqmc_unit. split.
  - split; [apply Rmin_glb; [apply Rmax_r|lra]|apply Rmin_r].
  - intros H. rewrite Rmax_left by lra. rewrite Rmin_left by lra. exists (Int_part (u + shift)). unfold frac_part. ring.
Qed.
Print Assumptions C215_unit.

(** ** Mixtures of Chow-Liu trees with a common structure [parents] *)

(** C216: which mixtures are compiled *)
Theorem C216_accepted : forall F K alpha parents root n raw w, rooted_tree parents root -> length parents = F ->
  (exists m, compile_cltree F K alpha parents n raw w = Ok m) <->
  (2 <= F)%nat /\ (2 <= K)%nat /\ 0 < alpha /\ (1 <= n)%nat /\ (forall i, (i < n)%nat -> 0 < w i) /\ Rabs (bsum n w - 1) <= / 10 ^ 6.
Proof. intros. now apply compile_cltree_iff with (root := root). Qed.
Print Assumptions C216_accepted.
(** ... and the value of a row with any missing cells: the weighted sum over the
    components of the trees' marginal probabilities; other rows raise *)
Theorem C216_value : forall F K alpha parents root n raw w m, rooted_tree parents root -> length parents = F ->
  compile_cltree F K alpha parents n raw w = Ok m ->
  (forall rows, (exists x, In x rows /\ ~ exists ob, observes F K x ob) -> joint_ll m rows = Err) /\
  forall rows obsv, Forall2 (observes F K) rows obsv ->
    exists lls, joint_ll m rows = Ok lls /\ length lls = length rows /\
      forall b x ob vs y, nth_error rows b = Some x -> nth_error obsv b = Some ob -> missing_of F ob vs ->
        (forall i v, (i < F)%nat -> ob i = Some v -> y i = v) -> exists ll, nth_error lls b = Some ll /\
          pr ll = tree_mix K root n parents raw (fun i => w i / bsum n w) vs y.
Proof.
  intros F K alpha parents root n raw w m T L E. split.
  - exact (joint_raises F K alpha parents root n raw w T L m E).
  - exact (joint_spec F K alpha parents root n raw w T L m E).
Qed.
Print Assumptions C216_value.
(** on complete rows this is what training maximised *)
Theorem C216_is_trained : forall F K alpha parents root n raw w m rows xs, rooted_tree parents root -> length parents = F ->
  compile_cltree F K alpha parents n raw w = Ok m -> weights_ok n w ->
  Forall2 (fun (r : cells) (x : nat -> nat) => forall f, (f < F)%nat -> (x f < K)%nat /\ r f = Some (INR (x f))) rows xs ->
  joint_ll m rows = Ok (map (fun x => mixture_ll n w (fun i => tree_ll F K root parents (decode_cpt F K root (raw i)) x)) xs).
Proof. intros F K alpha parents root n raw w m rows xs T L E W FX. exact (joint_is_trained F K alpha parents root n raw w T L m E rows xs W FX). Qed.
Print Assumptions C216_is_trained.

(** C217: the compiled mixture sums to one over all complete rows *)
Theorem C217_normalised : forall F K alpha parents root n raw w m, rooted_tree parents root -> length parents = F ->
  compile_cltree F K alpha parents n raw w = Ok m ->
  (forall i, normalised_tables F K parents (table K root (raw i))) /\
  forall vs y, missing_of F (fun _ => None) vs -> tree_mix K root n parents raw (fun i => w i / bsum n w) vs y = 1.
Proof.
  intros F K alpha parents root n raw w m T L E. split.
  - exact (table_normalised F K alpha parents root n raw w T L m E).
  - exact (mix_total F K alpha parents root n raw w T L m E).
Qed.
Print Assumptions C217_normalised.
Example C216_C217_nonvacuous : exists m lls ll, compile_cltree 2 2 1 par2 2 raw2 half = Ok m /\ rooted_tree par2 0 /\ weights_ok 2 half /\
  joint_ll m [fun f => if Nat.eqb f 0 then Some (INR 0) else None] = Ok lls /\ nth_error lls 0 = Some ll /\ pr ll = 1 / 2.
Proof.
  destruct mix2_ex as (m & E).
  destruct (proj2 (C216_value 2 2 1 par2 0 2 raw2 half m tree2 eq_refl E) [fun f => if Nat.eqb f 0 then Some (INR 0) else None] [fun f => if Nat.eqb f 0 then Some 0%nat else None])
    as (lls & El & _ & V).
  { constructor; [|constructor]. intros i Hi. destruct (Nat.eqb i 0); [split; [lia|reflexivity]|reflexivity]. }
  destruct (V 0%nat _ _ [1%nat] (fun _ => 0%nat) eq_refl eq_refl (miss1 (fun _ => DReal) (fun _ => 0%nat) 0 0 ltac:(lia))) as (ll & Hl & P).
  { intros i v _. cbv beta. destruct (Nat.eqb i 0); congruence. }
  exists m, lls, ll. split; [exact E|]. split; [exact tree2|]. split; [exact half_ok|]. split; [exact El|]. split; [exact Hl|].
  rewrite P. unfold tree_mix, half. cbn [bsum fsum]. rewrite !prob2 by (cbn; lia). unfold pp. cbn [Nat.eqb]. field.
Qed.

(** C218: a mixture of one tree completes rows from the exact conditional *)
Theorem C218_single_component : forall F K alpha parents root raw w m D junk x ob vs y g, rooted_tree parents root -> length parents = F ->
  compile_cltree F K alpha parents 1 raw w = Ok m -> observes F K x ob -> missing_of F ob vs ->
  (forall i v, (i < F)%nat -> ob i = Some v -> y i = v) -> first_cells F g ->
  expects D (joint_sample false junk m x) g
    (fsum K vs (fun z => tree_prob parents (table K root (raw 0%nat)) z * g (fill x (fun _ => true) z)) y /
     fsum K vs (tree_prob parents (table K root (raw 0%nat))) y).
Proof. exact single_sample. Qed.
Print Assumptions C218_single_component.
Example C218_nonvacuous junk : exists m, compile_cltree 2 2 1 par2 1 raw2 (fun _ => 1) = Ok m /\
  expects (fun _ => DReal) (joint_sample false junk m x0) (row_is 2 (fun f => f)) (3 / 16).
Proof.
  destruct (proj2 (C216_accepted 2 2 1 par2 0 1 raw2 (fun _ => 1) tree2 eq_refl)) as (m & E).
  { repeat split; try lia; try lra; [intros; lra|]. cbn [bsum]. replace (0 + 1 - 1) with 0 by field. rewrite Rabs_R0. apply Rlt_le, Rinv_0_lt_compat. lra. }
  exists m. split; [exact E|].
  pose proof (C218_single_component 2 2 1 par2 0 raw2 (fun _ => 1) m (fun _ => DReal) junk x0 (fun _ => None) [0; 1]%nat (fun _ => 0%nat) (row_is 2 (fun f => f))
    tree2 eq_refl E ob0 miss0 ltac:(intros; discriminate) g2_first) as X.
  match type of X with expects _ _ _ ?u => replace (3 / 16) with u; [exact X|] end.
  change (row_is 2 (fun f => f)) with g2. cbn [fsum bsum]. rewrite !prob2 by (cbn; lia). rewrite !g2_hit. unfold fill, x0. rewrite !hit_INR. unfold pp. cbn [Nat.eqb]. field.
Qed.

(** C219 (refuted): sampling from a compiled mixture draws each row with its
    probability under log_likelihood.  Each feature draws its component on its own:
    here the row (0, 1) has probability 3/16 but is drawn with probability 1/4. *)
Theorem C219_sampling_refuted : exists F K alpha parents root n raw w m x ll,
  rooted_tree parents root /\ length parents = F /\ weights_ok n w /\ compile_cltree F K alpha parents n raw w = Ok m /\
  observes F K x (fun f => Some f) /\ joint_ll m [x] = Ok [ll] /\ pr ll = 3 / 16 /\
  (forall D junk u, expects D (joint_sample false junk m (fun _ => None)) (row_is F (fun f => f)) u <-> u = 1 / 4).
Proof.
  destruct mix2_ex as (m & E). set (x := fun f : nat => Some (INR f)).
  assert (OB : observes 2 2 x (fun f => Some f)) by (intros i Hi; split; [exact Hi|reflexivity]).
  destruct (proj2 (C216_value 2 2 1 par2 0 2 raw2 half m tree2 eq_refl E) [x] [fun f => Some f]) as (lls & El & Ll & V); [constructor; [exact OB|constructor]|].
  destruct (V 0%nat x _ [] (fun f => f) eq_refl eq_refl) as (ll & Hl & P).
  { split; [constructor|]. intros v. split; [intros []|intros [_ ?]; discriminate]. }
  { intros i v _ H. now injection H. }
  destruct lls as [|l0 [|l1 ls]]; try discriminate. cbn in Hl. injection Hl as ->.
  exists 2%nat, 2%nat, 1, par2, 0%nat, 2%nat, raw2, half, m, x, ll.
  split; [exact tree2|]. split; [reflexivity|]. split; [exact half_ok|]. split; [exact E|]. split; [exact OB|]. split; [exact El|]. split; [rewrite P; exact dens2|].
  intros D junk u. split.
  - intros H. exact (expects_unique D _ _ u (1 / 4) H (joint2 m E D junk)).
  - intros ->. exact (joint2 m E D junk).
Qed.
Print Assumptions C219_sampling_refuted.

(** C220 (refuted): some variables of a compiled mixture can be marginalised away.
    Every request to remove some but not all of the variables raises; a request that
    removes nothing returns an equal model, one that removes everything returns None. *)
Theorem C220_marginalize_refuted : forall F K alpha parents root n raw w m marg, rooted_tree parents root -> length parents = F ->
  compile_cltree F K alpha parents n raw w = Ok m ->
  ((exists f, (f < F)%nat /\ ~ In f marg) -> (exists f, (f < F)%nat /\ In f marg) -> joint_marginalize m marg = Err) /\
  ((forall f, (f < F)%nat -> ~ In f marg) -> exists m', joint_marginalize m marg = Ok (Some m') /\ forall rows, joint_ll m' rows = joint_ll m rows) /\
  ((forall f, (f < F)%nat -> In f marg) -> joint_marginalize m marg = Ok None).
Proof.
  intros F K alpha parents root n raw w m marg T L E. split; [|split].
  - intros (f & Hf & N) (f' & Hf' & I'). exact (joint_marg_some F K alpha parents root n raw w T L m E marg f f' Hf N Hf' I').
  - exact (joint_marg_none F K alpha parents root n raw w T L m E marg).
  - exact (joint_marg_all F K alpha parents n raw w L m E marg).
Qed.
Print Assumptions C220_marginalize_refuted.
Example C220_ex : exists m, compile_cltree 2 2 1 par2 2 raw2 half = Ok m /\ joint_marginalize m [0%nat] = Err /\ joint_marginalize m [1; 0]%nat = Ok None.
Proof.
  destruct mix2_ex as (m & E). exists m. split; [exact E|]. split.
  - apply (C220_marginalize_refuted 2 2 1 par2 0 2 raw2 half m [0%nat] tree2 eq_refl E); [exists 1%nat; split; [lia|intros [H|[]]; discriminate]|exists 0%nat; split; [lia|now left]].
  - apply (C220_marginalize_refuted 2 2 1 par2 0 2 raw2 half m [1; 0]%nat tree2 eq_refl E). intros [|[|f]] Hf; [right; now left|now left|lia].
Qed.
