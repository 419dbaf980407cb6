(** C173-C178: pairwise tables, mutual information and Chow-Liu trees (zoo/hclt/mi.py,
    zoo/hclt/chow_liu.py). *)
From Coq Require Import List Arith ZArith Bool Reals Lia Lra FunctionalExtensionality.
From Verif Require Import Base CltSpec CltFit MstModel MstSpec HcltMiModel HcltSpec HcltMiProofs HcltCatProofs P_Mst.
Import ListNotations.
Local Open Scope R_scope.

Lemma weights_are_ok n weights ws : weights_are n weights ws -> sample_weights n weights = Ok ws.
Proof.
  intros [[-> ->]|[-> L]]; [reflexivity|]. unfold sample_weights. rewrite map_length, L, Nat.eqb_refl. cbn [negb].
  replace (all_finite (map Some ws)) with (Some ws); [reflexivity|]. clear L. induction ws as [|a ws IH]; [reflexivity|]. cbn [map all_finite]. now rewrite <- IH.
Qed.

(** *** C173: the pairwise tables of binary data are the smoothed weighted frequencies
    (states 00, 01, 10, 11 in this order), consistent with each other and normalised *)
Theorem C173_binary_tables : forall data weights ws pc, weights_are (length data) weights ws -> nonneg_weights ws -> 0 <= pc -> 0 < lsumR ws + pc ->
  let d := bin_rows data ws in
  exists P, pairwise_marginal_binary data weights pc = Ok P /\
    (forall i j a b, i <> j -> (a < 2)%nat -> (b < 2)%nat -> P i j (2 * a + b)%nat = freq2 d pc 2 i j a b) /\
    (forall i, P i i 0%nat = freq1 d pc 2 i 0 /\ P i i 1%nat = 0 /\ P i i 2%nat = 0 /\ P i i 3%nat = freq1 d pc 2 i 1) /\
    (forall i j a b, i <> j -> (a < 2)%nat -> (b < 2)%nat -> P i j (2 * a + b)%nat = P j i (2 * b + a)%nat) /\
    (forall i j, i <> j -> joint_table 2 (fun a b => P i j (2 * a + b)%nat) (fun a => P i i (3 * a)%nat) (fun b => P j j (3 * b)%nat)).
Proof.
  intros data weights ws pc WA NW Hpc HZ d. pose proof (weights_are_ok _ _ _ WA) as EW.
  destruct (marginal_binary_spec data weights pc ws Hpc EW NW HZ) as (P & EP & OFF & DIAG). fold d in OFF, DIAG. exists P. split; [exact EP|].
  assert (OFF' : forall i j a b, i <> j -> (a < 2)%nat -> (b < 2)%nat -> P i j (2 * a + b)%nat = freq2 d pc 2 i j a b) by (intros; now apply OFF).
  split; [exact OFF'|]. split; [exact DIAG|]. split; [intros i j a b N Ha Hb; rewrite !OFF' by auto; apply freq2_sym|].
  assert (HD : forall i a, (a < 2)%nat -> P i i (3 * a)%nat = freq1 d pc 2 i a) by (intros i [|[|a]] Ha; [apply DIAG|apply DIAG|lia]).
  intros i j N. pose proof (bin_total data ws (sample_weights_len _ _ _ EW)) as BT. fold d in BT.
  destruct (freq_table d pc 2 ltac:(lia) Hpc (bin_rows_nonneg data ws NW) ltac:(rewrite BT; exact HZ) i j (bin_rows_lt data ws i) (bin_rows_lt data ws j)) as (T0 & T1 & T2 & T3 & T4).
  split; [intros a b Ha Hb; rewrite OFF' by auto; now apply T0|].
  split; [intros a Ha; rewrite HD by exact Ha; rewrite <- (T1 a Ha); apply bsum_ext; intros b Hb; now apply OFF'|].
  split; [intros b Hb; rewrite HD by exact Hb; rewrite <- (T2 b Hb); apply bsum_ext; intros a Ha; now apply OFF'|].
  split; [rewrite <- T3|rewrite <- T4]; apply bsum_ext; intros a Ha; now apply HD.
Qed.

(** *** C174: negative weights pass every check and give a "probability" above one *)
Theorem C174_negative_weights_refuted : exists data weights P, (forall w, In w weights -> w <> None) /\
  pairwise_marginal_binary data (Some weights) 0 = Ok P /\ P 0%nat 0%nat 3%nat > 1.
Proof.
  exists [(fun _ => Some 1); (fun _ => Some 0)], [Some 2; Some (-1)]. eexists. split; [intros w [<-|[<-|[]]]; discriminate|].
  unfold pairwise_marginal_binary. rewrite (proj2 (rlt0_false 0)) by lra. cbn [sample_weights length Nat.eqb negb all_finite bind].
  rewrite (proj2 (rle0_false _)) by (cbn; lra). split; [reflexivity|]. cbn [Nat.eqb]. unfold rsum, bit. cbn [map combine fst snd lsumR].
  destruct (Req_EM_T 1 0) as [E|_]; [exfalso; lra|]. destruct (Req_EM_T 0 0) as [_|N]; [|congruence]. cbn. lra.
Qed.

(** *** C175: NaN in binary data is counted as 1, silently; the categorical functions
    reject it *)
Definition nan_to_one (data : list (nat -> option R)) : list (nat -> option R) :=
  map (fun r i => match r i with None => Some 1 | c => c end) data.
Lemma nan_rsum data ws (g : (nat -> R) -> R) :
  rsum (combine (nan_to_one data) ws) (fun r => g (fun i => bit (r i))) = rsum (combine data ws) (fun r => g (fun i => bit (r i))).
Proof.
  unfold rsum, nan_to_one. revert ws. induction data as [|r data IH]; intros [|w ws]; try reflexivity. cbn [map combine fst snd]. rewrite !lsumR_cons, IH. f_equal. f_equal. f_equal.
  extensionality i. destruct (r i) as [v|]; [reflexivity|]. unfold bit. destruct (Req_EM_T 1 0); [exfalso; lra|reflexivity].
Qed.
Theorem C175_nan_is_one_refuted : forall f data k d weights pc masks,
  pairwise_mi_binary data weights pc eps_default = pairwise_mi_binary (nan_to_one data) weights pc eps_default /\
  learn_chow_liu_trees_binary f data k d weights pc masks = learn_chow_liu_trees_binary f (nan_to_one data) k d weights pc masks.
Proof.
  intros f data k dr weights pc masks.
  assert (EM : pairwise_marginal_binary data weights pc = pairwise_marginal_binary (nan_to_one data) weights pc).
  { unfold pairwise_marginal_binary. replace (length (nan_to_one data)) with (length data) by (symmetry; apply map_length). destruct (rlt0 pc); [reflexivity|].
    destruct (sample_weights (length data) weights) as [ws|]; [|reflexivity]. cbn [bind]. destruct (rle0 _); [reflexivity|]. f_equal. extensionality i. extensionality j. extensionality s.
    rewrite !(nan_rsum data ws (fun x => x _ * x _)), !(nan_rsum data ws (fun x => x _ * (1 - x _))), !(nan_rsum data ws (fun x => (1 - x _) * x _)). reflexivity. }
  unfold learn_chow_liu_trees_binary, pairwise_mi_binary. rewrite <- EM. split; reflexivity.
Qed.
Theorem C175_categorical_rejects_nan : forall f data num_cats k d weights pc chunk masks r i, In r data -> (i < f)%nat -> r i = None ->
  learn_chow_liu_trees_categorical f data num_cats k d weights pc chunk masks = Err.
Proof.
  intros f data num_cats k dr weights pc chunk masks r i Hr Hi E. unfold learn_chow_liu_trees_categorical. destruct (Nat.eqb k 0); [reflexivity|]. destruct (rlt0 pc) eqn:EP; [reflexivity|].
  unfold pairwise_mi_categorical. rewrite EP. destruct (Nat.eqb chunk 0); [reflexivity|]. destruct (complete f data) eqn:C; [|reflexivity].
  elim (proj1 (complete_spec f data) C r i Hr Hi E).
Qed.

(** *** C176: pairwise_mi_binary is the mutual information of the smoothed table, the
    diagonal the entropy, unless a possible value or pair is rarer than eps *)
Theorem C176_mi_binary : forall f data weights ws pc eps, weights_are (length data) weights ws -> nonneg_weights ws -> 0 <= pc -> 0 < lsumR ws + pc -> 0 < eps <= 1 ->
  let d := bin_rows data ws in
  not_rare d pc eps 2 f -> product_not_rare d pc eps 2 f ->
  exists mi, pairwise_mi_binary data weights pc eps = Ok mi /\
    forall i j, (i < f)%nat -> (j < f)%nat -> mi i j = (if Nat.eqb i j then entropy 2 (freq1 d pc 2 i) else mutual_information 2 (freq2 d pc 2 i j)) /\
      mi i j = mi j i /\ (i <> j -> 0 <= mi i j).
Proof.
  intros f data weights ws pc eps WA NW Hpc HZ HE d NR NP. pose proof (weights_are_ok _ _ _ WA) as EW.
  destruct (mi_binary_spec data weights pc eps ws f Hpc EW NW HZ) as (mi & EM & SY & EX). fold d in EX. exists mi. split; [exact EM|].
  intros i j Hi Hj. pose proof (EX NR NP HE i j Hi Hj) as X. split; [exact X|]. split; [apply SY|]. intros N. rewrite X. apply Nat.eqb_neq in N. rewrite N.
  pose proof (bin_total data ws (sample_weights_len _ _ _ EW)) as BT. fold d in BT.
  eapply mi_nonneg. apply (freq_table d pc 2 ltac:(lia) Hpc (bin_rows_nonneg data ws NW) ltac:(rewrite BT; exact HZ) i j (bin_rows_lt data ws i) (bin_rows_lt data ws j)).
Qed.

(** unweighted data: counts are integers, so the clamp at 1e-12 does nothing unless
    there are very many rows *)
Lemma unit_wsum (d : list (R * (nat -> nat))) sel : (forall wx, In wx d -> fst wx = 1) -> wsum d sel = INR (length (filter (fun wx => sel (snd wx)) d)).
Proof.
  intros H. unfold wsum. induction d as [|[w x] d IH]; [reflexivity|]. cbn [filter snd]. assert (w = 1) by (apply (H (w, x)); now left). subst w.
  destruct (sel x); [cbn [map fst length]; rewrite lsumR_cons, S_INR, IH by (intros; apply H; now right); ring|apply IH; intros; apply H; now right].
Qed.
Lemma unit_pos (d : list (R * (nat -> nat))) sel : (forall wx, In wx d -> fst wx = 1) -> wsum d sel = 0 \/ 1 <= wsum d sel.
Proof.
  intros H. rewrite unit_wsum by exact H. destruct (length _) as [|m]; [now left|right]. rewrite S_INR. pose proof (pos_INR m). lra.
Qed.
Lemma lsumR_ones n : lsumR (repeat 1 n) = INR n.
Proof. induction n as [|n IH]; [reflexivity|]. cbn [repeat]. rewrite lsumR_cons, IH, S_INR. ring. Qed.
Lemma ones_nonneg n : nonneg_weights (repeat 1 n).
Proof. apply Forall_forall. intros x H. apply repeat_spec in H. lra. Qed.
Lemma ones_bin data wx : In wx (bin_rows data (repeat 1 (length data))) -> fst wx = 1.
Proof. intros H. apply in_map_iff in H. destruct H as ([r w] & <- & H). cbn. apply in_combine_r in H. now apply repeat_spec in H. Qed.
Lemma ones_cat data wx : In wx (cat_rows data (repeat 1 (length data))) -> fst wx = 1.
Proof.
  intros H. unfold cat_rows in H. apply in_map_iff in H. destruct H as ([r w] & <- & H). cbn. apply in_combine_r in H. now apply repeat_spec in H.
Qed.
Lemma unit_freq (d : list (R * (nat -> nat))) pc K sel : (forall wx, In wx d -> fst wx = 1) -> (0 < K)%nat -> (pc = 0 \/ 1 <= pc) ->
  0 < wsum d (fun _ => true) + pc -> 0 < (wsum d sel + pc / INR K) / (wsum d (fun _ => true) + pc) ->
  / INR K / (wsum d (fun _ => true) + pc) <= (wsum d sel + pc / INR K) / (wsum d (fun _ => true) + pc).
Proof.
  intros H1 HK HP HZ H0. assert (KR : 1 <= INR K) by (change 1 with (INR 1); apply le_INR; lia).
  unfold Rdiv at 1 3. apply Rmult_le_compat_r; [left; now apply Rinv_0_lt_compat|].
  assert (IK : / INR K <= 1) by (rewrite <- Rinv_1; apply Rinv_le_contravar; lra). assert (IP : 0 < / INR K) by (apply Rinv_0_lt_compat; lra).
  destruct (unit_pos d sel H1) as [E|E], HP as [P|P].
  - rewrite E, P in H0. unfold Rdiv in H0. rewrite Rmult_0_l, Rplus_0_l, Rmult_0_l in H0. lra.
  - rewrite E. unfold Rdiv. nra.
  - rewrite P. unfold Rdiv. lra.
  - unfold Rdiv. nra.
Qed.
Lemma total_bin data : wsum (bin_rows data (repeat 1 (length data))) (fun _ => true) = INR (length data).
Proof. rewrite bin_total by apply repeat_length. apply lsumR_ones. Qed.
Lemma inv_bound x y : 0 < x -> x <= y -> / y <= / x.
Proof. intros. apply Rinv_le_contravar; lra. Qed.
Lemma unweighted_binary_guards data pc f : (pc = 0 \/ 1 <= pc) -> 0 < INR (length data) + pc <= 250000 ->
  not_rare (bin_rows data (repeat 1 (length data))) pc eps_default 2 f /\ product_not_rare (bin_rows data (repeat 1 (length data))) pc eps_default 2 f.
Proof.
  intros HP HZ. set (d := bin_rows data (repeat 1 (length data))). pose proof (total_bin data) as T. fold d in T.
  assert (H1 : forall wx, In wx d -> fst wx = 1) by (intros; now apply (ones_bin data)).
  assert (IV : / 250000 <= / (INR (length data) + pc)) by (apply inv_bound; lra).
  assert (E1 : forall i a, 0 < freq1 d pc 2 i a -> / 500000 <= freq1 d pc 2 i a).
  { intros i a Hp. unfold freq1 in *. rewrite <- T in IV. eapply Rle_trans; [|apply unit_freq; [exact H1|lia|exact HP|rewrite T; lra|exact Hp]].
    replace (/ 500000) with (/ INR 2 * / 250000) by (cbn; lra). unfold Rdiv. apply Rmult_le_compat_l; [cbn; lra|exact IV]. }
  assert (E2 : forall i j a b, 0 < freq2 d pc 2 i j a b -> / 1000000 <= freq2 d pc 2 i j a b).
  { intros i j a b Hp. unfold freq2 in *. rewrite <- T in IV. eapply Rle_trans; [|apply unit_freq; [exact H1|lia|exact HP|rewrite T; lra|exact Hp]].
    replace (/ 1000000) with (/ INR (2 * 2) * / 250000) by (cbn; lra). unfold Rdiv. apply Rmult_le_compat_l; [cbn; lra|exact IV]. }
  assert (EE : eps_default = / 1000000 * / 1000000) by (unfold eps_default; lra).
  split.
  - intros i j a b _ _ _ _ _ Hp. specialize (E2 i j a b Hp). lra.
  - intros i j a b _ _ _ _ P1 P2. pose proof (E1 i a P1). pose proof (E1 j b P2). rewrite EE.
    apply Rle_trans with (/ 500000 * / 500000); [lra|]. apply Rmult_le_compat; lra.
Qed.
Theorem C176_mi_binary_unweighted : forall f data pc, (pc = 0 \/ 1 <= pc) -> 0 < INR (length data) + pc <= 250000 ->
  let d := bin_rows data (repeat 1 (length data)) in
  exists mi, pairwise_mi_binary data None pc eps_default = Ok mi /\
    forall i j, (i < f)%nat -> (j < f)%nat -> mi i j = (if Nat.eqb i j then entropy 2 (freq1 d pc 2 i) else mutual_information 2 (freq2 d pc 2 i j)) /\
      mi i j = mi j i /\ (i <> j -> 0 <= mi i j).
Proof.
  intros f data pc HP HZ d. destruct (unweighted_binary_guards data pc f HP HZ) as [NR NP].
  apply C176_mi_binary; [left; split; reflexivity|apply ones_nonneg|destruct HP; lra|rewrite lsumR_ones; lra|unfold eps_default; lra|exact NR|exact NP].
Qed.

(** *** C177: pairwise_mi_categorical, whatever the chunk size *)
Theorem C177_mi_categorical : forall f data num_cats weights ws pc eps chunk, weights_are (length data) weights ws -> nonneg_weights ws -> 0 <= pc -> (0 < chunk)%nat -> (0 < length data)%nat ->
  let K := infer_cats f data num_cats in let d := cat_rows data ws in let pc' := cat_pc weights (length data) pc ws in
  (0 < K)%nat -> in_range f K data -> 0 < lsumR ws + pc' -> 0 < eps -> not_rare d pc' eps K f ->
  exists mi, pairwise_mi_categorical f data num_cats weights pc eps chunk = Ok mi /\
    (forall i j, (i < f)%nat -> (j < f)%nat -> i <> j -> mi i j = mutual_information K (freq2 d pc' K i j) /\ 0 <= mi i j) /\
    (forall i, (2 <= f)%nat -> (i < f)%nat -> mi i i = entropy K (freq1 d pc' K i)) /\ (forall i j, mi i j = mi j i).
Proof.
  intros f data num_cats weights ws pc eps chunk WA NW Hpc Hch Hn K d pc' HK HR HZ He NR. pose proof (weights_are_ok _ _ _ WA) as EW.
  destruct (mi_cat_spec f data num_cats weights pc eps chunk ws Hpc Hch HK HR EW (or_intror Hn) HZ) as (mi & EM & SY & _).
  destruct (mi_cat_exact f data num_cats weights pc eps chunk ws Hpc Hch HK HR EW NW (or_intror Hn) HZ mi EM He NR) as [H1 H2].
  exists mi. split; [exact EM|]. split; [|split; [exact H2|exact SY]]. intros i j Hi Hj N. split; [now apply H1|]. rewrite (H1 i j Hi Hj N).
  assert (HZ' : 0 < wsum d (fun _ => true) + pc') by (unfold d; rewrite (d_total data weights ws EW); exact HZ).
  assert (PN : 0 <= pc') by (eapply (pc'_nonneg data weights pc ws); eauto). assert (DN : forall wx, In wx d -> 0 <= fst wx) by (intros wx; eapply (d_nonneg data ws); eauto).
  assert (DL : forall i wx, (i < f)%nat -> In wx d -> (snd wx i < K)%nat) by (intros i0 wx; eapply (d_lt f data num_cats weights chunk ws); eauto).
  eapply mi_nonneg. apply (freq_table d pc' K HK PN DN HZ' i j); intros wx; now apply DL.
Qed.
Lemma total_cat data : wsum (cat_rows data (repeat 1 (length data))) (fun _ => true) = INR (length data).
Proof. rewrite (d_total data None) by reflexivity. apply lsumR_ones. Qed.
Lemma unweighted_cat_guard data pc K f : (0 < K)%nat -> (pc = 0 \/ 1 <= pc) -> 0 < INR (length data) + pc -> INR (K * K) * (INR (length data) + pc) <= 10 ^ 12 ->
  not_rare (cat_rows data (repeat 1 (length data))) pc eps_default K f.
Proof.
  intros HK HP HZ HB i j a b _ _ _ _ _ Hp. pose proof (total_cat data) as T. unfold freq2 in *.
  assert (HKK : (0 < K * K)%nat) by nia. assert (KP : 0 < INR (K * K)) by (apply lt_0_INR; exact HKK).
  eapply Rle_trans; [|apply unit_freq; [intros wx; apply ones_cat|exact HKK|exact HP|rewrite T; lra|exact Hp]].
  rewrite T. unfold Rdiv. rewrite <- Rinv_mult by lra. unfold eps_default. apply inv_bound; [apply Rmult_lt_0_compat; lra|exact HB].
Qed.
(** without [num_cats], the number of categories is the largest value plus one *)
Lemma fold_max_spec l : forall a, (a <= fold_left Z.max l a)%Z /\ (forall z, In z l -> (z <= fold_left Z.max l a)%Z) /\
  (fold_left Z.max l a = a \/ In (fold_left Z.max l a) l).
Proof.
  induction l as [|b l IH]; intros a; cbn [fold_left].
  - split; [lia|]. split; [intros z []|now left].
  - destruct (IH (Z.max a b)) as (A & B & C). split; [lia|]. split.
    + intros z [<-|Hz]; [lia|now apply B].
    + destruct C as [C|C]; [|right; now right]. destruct (Z.max_spec a b) as [[_ E]|[_ E]]; rewrite C, E; [right; now left|now left].
Qed.
Theorem C177_num_cats : forall f data, (0 < f)%nat -> data <> [] ->
  (forall r i, In r data -> (i < f)%nat -> exists z, r i = Some z /\ (0 <= z)%Z) ->
  let K := infer_cats f data None in
  (0 < K)%nat /\ in_range f K data /\ exists r i, In r data /\ (i < f)%nat /\ r i = Some (Z.of_nat K - 1)%Z.
Proof.
  intros f data Hf Hne Hz K.
  assert (AV : forall z, In z (all_values f data) <-> exists r i, In r data /\ (i < f)%nat /\ r i = Some z).
  { intros z. unfold all_values. rewrite in_flat_map. split.
    - intros (r & Hr & I). apply in_map_iff in I. destruct I as (i & E & Hi). apply in_seq in Hi. exists r, i. split; [exact Hr|]. split; [lia|].
      destruct (Hz r i Hr ltac:(lia)) as (z' & E' & _). unfold zval in E. rewrite E' in *. now subst.
    - intros (r & i & Hr & Hi & E). exists r. split; [exact Hr|]. apply in_map_iff. exists i. split; [unfold zval; now rewrite E|apply in_seq; lia]. }
  assert (EX : exists a l, all_values f data = a :: l).
  { destruct data as [|r data]; [contradiction|]. destruct f; [lia|]. unfold all_values. cbn. eauto. }
  destruct EX as (a & l & EA). assert (EK : K = Z.to_nat (fold_left Z.max l a + 1)) by (unfold K, infer_cats; now rewrite EA).
  destruct (fold_max_spec l a) as (A & B & C). set (M := fold_left Z.max l a) in *.
  assert (IM : In M (all_values f data)) by (rewrite EA; destruct C as [C|C]; [left; now symmetry|now right]).
  assert (LE : forall z, In z (all_values f data) -> (z <= M)%Z) by (intros z Iz; rewrite EA in Iz; destruct Iz as [<-|Iz]; [exact A|now apply B]).
  pose proof (proj1 (AV M) IM) as (r & i & Hr & Hi & E). destruct (Hz r i Hr Hi) as (z & E' & Pz). rewrite E in E'. injection E' as <-.
  split; [lia|]. split.
  - intros r' i' Hr' Hi'. destruct (Hz r' i' Hr' Hi') as (z' & Ez & Pz'). exists z'. split; [exact Ez|].
    pose proof (LE z' (proj2 (AV z') (ex_intro _ r' (ex_intro _ i' (conj Hr' (conj Hi' Ez)))))). lia.
  - exists r, i. split; [exact Hr|]. split; [exact Hi|]. rewrite E. f_equal. lia.
Qed.
Theorem C177_mi_categorical_unweighted : forall f data num_cats pc chunk, (pc = 0 \/ 1 <= pc) -> (0 < chunk)%nat -> (0 < length data)%nat ->
  let K := infer_cats f data num_cats in let d := cat_rows data (repeat 1 (length data)) in
  (0 < K)%nat -> in_range f K data -> INR (K * K) * (INR (length data) + pc) <= 10 ^ 12 ->
  exists mi, pairwise_mi_categorical f data num_cats None pc eps_default chunk = Ok mi /\
    (forall i j, (i < f)%nat -> (j < f)%nat -> i <> j -> mi i j = mutual_information K (freq2 d pc K i j) /\ 0 <= mi i j) /\
    (forall i, (2 <= f)%nat -> (i < f)%nat -> mi i i = entropy K (freq1 d pc K i)) /\ (forall i j, mi i j = mi j i).
Proof.
  intros f data num_cats pc chunk HP Hch Hn K d HK HR HB. assert (NP : 0 < INR (length data)) by now apply lt_0_INR.
  apply (C177_mi_categorical f data num_cats None (repeat 1 (length data)) pc eps_default chunk); auto; try (left; split; reflexivity); try apply ones_nonneg; try (destruct HP; lra).
  - cbn [cat_pc]. rewrite lsumR_ones. destruct HP; lra.
  - unfold eps_default. lra.
  - cbn [cat_pc]. apply unweighted_cat_guard; auto. destruct HP; lra.
Qed.
(** the chunk size does not matter, with any weights *)
Theorem C177_chunk_size : forall f data num_cats weights ws pc eps c1 c2 m1 m2, weights_are (length data) weights ws -> 0 <= pc ->
  (0 < length data)%nat -> (0 < infer_cats f data num_cats)%nat -> in_range f (infer_cats f data num_cats) data -> 0 < lsumR ws + cat_pc weights (length data) pc ws ->
  (0 < c1)%nat -> (0 < c2)%nat ->
  pairwise_mi_categorical f data num_cats weights pc eps c1 = Ok m1 -> pairwise_mi_categorical f data num_cats weights pc eps c2 = Ok m2 ->
  forall i j, (i < f)%nat -> (j < f)%nat -> m1 i j = m2 i j.
Proof.
  intros f data num_cats weights ws pc eps c1 c2 m1 m2 WA Hpc Hn HK HR HZ H1 H2 E1 E2. pose proof (weights_are_ok _ _ _ WA) as EW.
  destruct (mi_cat_spec f data num_cats weights pc eps c1 ws Hpc H1 HK HR EW (or_intror Hn) HZ) as (m1' & E1' & S1 & D1 & O1).
  destruct (mi_cat_spec f data num_cats weights pc eps c2 ws Hpc H2 HK HR EW (or_intror Hn) HZ) as (m2' & E2' & S2 & D2 & O2).
  assert (m1' = m1) by congruence. assert (m2' = m2) by congruence. subst m1' m2'. intros i j Hi Hj.
  destruct (lt_eq_lt_dec i j) as [[L|E]|L]; [now rewrite O1, O2 by lia|subst j; now rewrite D1, D2|rewrite S1, S2; now rewrite O1, O2 by lia].
Qed.

(** *** C178: the learned trees are the spanning trees of largest total mutual information *)
Lemma weight_neg (g : nat -> nat -> R) T : weight (fun i j => - g i j) T = - weight g T.
Proof. unfold weight. induction T as [|[i j] T IH]; [cbn; ring|]. cbn [map fst snd]. rewrite !lsumR_cons. cbn [fst snd] in IH. rewrite IH. ring. Qed.
Lemma weight_tree (g h : nat -> nat -> R) f T : tree f T -> (forall i j, (i < f)%nat -> (j < f)%nat -> i <> j -> g i j = h i j) -> weight g T = weight h T.
Proof.
  intros [[HB _] HC] H. unfold weight. apply lsumR_map_ext. intros [i j] Hin. destruct (HB i j Hin) as (B1 & B2). specialize (HC i j Hin). cbn [fst snd]. apply H; lia.
Qed.
Lemma best_of_mi f (mi : nat -> nat -> R) k masks (score : nat -> nat -> R) : (0 < f)%nat -> (0 < k)%nat -> (forall i j, (i < f)%nat -> (j < f)%nat -> i <> j -> mi i j = score i j) ->
  exists out, topk_mst f f (fun i j => Some (- mi i j)) k 0 masks true = Ok out /\ best_trees f k score out.
Proof.
  intros Hf Hk HS. destruct (C53_topk_best f (fun i j => Some (- mi i j)) (fun i j => - mi i j) k masks (fun i j _ _ => eq_refl) Hf Hk) as (out & EO & HL & HT & HD & HSo & HB).
  exists out. split; [exact EO|]. split; [exact HL|]. split; [exact HT|]. split; [exact HD|].
  assert (TR : forall T, tree f T -> weight (fun i j => - mi i j) T = - weight score T).
  { intros T T0. rewrite weight_neg. f_equal. now apply (weight_tree _ _ f). }
  rewrite Forall_forall in HT. split.
  - intros i j Hij. specialize (HSo i j Hij). rewrite !TR in HSo by (apply HT, nth_In; lia). lra.
  - intros T T0. destruct (HB T T0) as [H|[H1 H2]]; [now left|right]. split; [exact H1|]. intros T' HT'. specialize (H2 T' HT'). rewrite !TR in H2 by auto. lra.
Qed.
Theorem C178_chow_liu_binary : forall f data weights ws pc k masks, weights_are (length data) weights ws -> nonneg_weights ws -> 0 <= pc -> 0 < lsumR ws + pc ->
  (0 < f)%nat -> (0 < k)%nat ->
  let d := bin_rows data ws in not_rare d pc eps_default 2 f -> product_not_rare d pc eps_default 2 f ->
  exists out, learn_chow_liu_trees_binary f data k 0 weights pc masks = Ok out /\ best_trees f k (fun i j => mutual_information 2 (freq2 d pc 2 i j)) out /\
    (k = 1%nat -> learn_chow_liu_tree_binary f data 0 weights pc masks = Ok (nth 0 out [])).
Proof.
  intros f data weights ws pc k masks WA NW Hpc HZ Hf Hk d NR NP.
  destruct (C176_mi_binary f data weights ws pc eps_default WA NW Hpc HZ ltac:(unfold eps_default; lra) NR NP) as (mi & EM & HM). fold d in HM.
  destruct (best_of_mi f mi k masks (fun i j => mutual_information 2 (freq2 d pc 2 i j)) Hf Hk) as (out & EO & HB).
  { intros i j Hi Hj N. destruct (HM i j Hi Hj) as [X _]. apply Nat.eqb_neq in N. now rewrite N in X. }
  assert (EL : learn_chow_liu_trees_binary f data k 0 weights pc masks = Ok out).
  { unfold learn_chow_liu_trees_binary. replace (Nat.eqb k 0) with false by (symmetry; apply Nat.eqb_neq; lia). rewrite (proj2 (rlt0_false pc) Hpc), EM. exact EO. }
  exists out. split; [exact EL|]. split; [exact HB|]. intros ->. unfold learn_chow_liu_tree_binary. rewrite EL. cbn [bind]. destruct HB as (HL & _). destruct out; [cbn in HL; lia|reflexivity].
Qed.
Theorem C178_chow_liu_categorical : forall f data num_cats weights ws pc k chunk masks, weights_are (length data) weights ws -> nonneg_weights ws -> 0 <= pc -> (0 < chunk)%nat ->
  (0 < length data)%nat -> (0 < f)%nat -> (0 < k)%nat ->
  let K := infer_cats f data num_cats in let d := cat_rows data ws in let pc' := cat_pc weights (length data) pc ws in
  (0 < K)%nat -> in_range f K data -> 0 < lsumR ws + pc' -> not_rare d pc' eps_default K f ->
  exists out, learn_chow_liu_trees_categorical f data num_cats k 0 weights pc chunk masks = Ok out /\ best_trees f k (fun i j => mutual_information K (freq2 d pc' K i j)) out /\
    (k = 1%nat -> learn_chow_liu_tree_categorical f data num_cats 0 weights pc chunk masks = Ok (nth 0 out [])).
Proof.
  intros f data num_cats weights ws pc k chunk masks WA NW Hpc Hch Hn Hf Hk K d pc' HK HR HZ NR.
  destruct (C177_mi_categorical f data num_cats weights ws pc eps_default chunk WA NW Hpc Hch Hn HK HR HZ ltac:(unfold eps_default; lra) NR) as (mi & EM & HM & _).
  destruct (best_of_mi f mi k masks (fun i j => mutual_information K (freq2 d pc' K i j)) Hf Hk) as (out & EO & HB).
  { intros i j Hi Hj N. now apply HM. }
  assert (EL : learn_chow_liu_trees_categorical f data num_cats k 0 weights pc chunk masks = Ok out).
  { unfold learn_chow_liu_trees_categorical. replace (Nat.eqb k 0) with false by (symmetry; apply Nat.eqb_neq; lia). rewrite (proj2 (rlt0_false pc) Hpc), EM. exact EO. }
  exists out. split; [exact EL|]. split; [exact HB|]. intros ->. unfold learn_chow_liu_tree_categorical. rewrite EL. cbn [bind]. destruct HB as (HL & _). destruct out; [cbn in HL; lia|reflexivity].
Qed.

(** *** Non-vacuity: three rows over three binary features *)
Definition ex_rows : list (nat -> option R) := [(fun _ => Some 1); (fun i => if Nat.eqb i 0 then Some 1 else Some 0); (fun _ => Some 0)].
Example C176_ex : exists mi, pairwise_mi_binary ex_rows None 1 eps_default = Ok mi /\ 0 <= mi 0%nat 1%nat.
Proof.
  destruct (C176_mi_binary_unweighted 3 ex_rows 1) as (mi & EM & HM); [right; lra|cbn; lra|]. exists mi. split; [exact EM|]. now apply HM; try lia.
Qed.
Example C178_ex : exists out, learn_chow_liu_trees_binary 3 ex_rows 2 0 None 1 (fun _ _ _ => false) = Ok out /\ (0 < length out <= 2)%nat /\ Forall (tree 3) out.
Proof.
  destruct (unweighted_binary_guards ex_rows 1 3) as [NR NP]; [right; lra|cbn; lra|].
  destruct (C178_chow_liu_binary 3 ex_rows None (repeat 1 3) 1 2 (fun _ _ _ => false)) as (out & EO & (HL & HT & _) & _); try lra; try lia; [left; split; reflexivity|apply ones_nonneg|cbn; lra|exact NR|exact NP|].
  exists out. repeat split; try apply HL; assumption.
Qed.
Example C177_ex : exists mi, pairwise_mi_categorical 2 [(fun i => Some (Z.of_nat i)); (fun _ => Some 2%Z)] None None 1 eps_default 1 = Ok mi /\ 0 <= mi 0%nat 1%nat.
Proof.
  set (data := [(fun i => Some (Z.of_nat i)); (fun _ => Some 2%Z)]).
  assert (K3 : infer_cats 2 data None = 3%nat) by reflexivity.
  destruct (C177_mi_categorical_unweighted 2 data None 1 1) as (mi & EM & HM & _); try lia; try (right; lra).
  - cbn; lia.
  - rewrite K3. intros r i [<-|[<-|[]]] Hi; eexists; (split; [reflexivity|]); lia.
  - rewrite K3. cbn. lra.
  - exists mi. split; [exact EM|]. now apply HM; try lia.
Qed.
Print Assumptions C173_binary_tables.
Print Assumptions C174_negative_weights_refuted.
Print Assumptions C175_nan_is_one_refuted.
Print Assumptions C175_categorical_rejects_nan.
Print Assumptions C176_mi_binary.
Print Assumptions C176_mi_binary_unweighted.
Print Assumptions C177_mi_categorical.
Print Assumptions C177_mi_categorical_unweighted.
Print Assumptions C177_chunk_size.
Print Assumptions C178_chow_liu_binary.
Print Assumptions C178_chow_liu_categorical.
Print Assumptions C177_num_cats.
