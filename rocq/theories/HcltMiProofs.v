(** Pairwise tables and mutual information (HcltMiModel). *)
From Coq Require Import List Arith ZArith Bool Reals Lia Lra.
From Verif Require MeasureProofs PromGraph.
From Verif Require Import Base EmProofs CltSpec CltFit MstModel HcltMiModel HcltSpec.
Import ListNotations.
Local Open Scope R_scope.

(** *** smoothed frequencies form joint tables *)
Section Freq.
Context (d : list (R * (nat -> nat))) (pc : R) (K : nat) (HK : (0 < K)%nat) (Hpc : 0 <= pc)
  (Hw : forall wx, In wx d -> 0 <= fst wx) (HZ : 0 < wsum d (fun _ => true) + pc).
Lemma KR : 0 < INR K.
Proof. apply lt_0_INR. exact HK. Qed.
Lemma wsum_ext (s1 s2 : (nat -> nat) -> bool) : (forall x, s1 x = s2 x) -> wsum d s1 = wsum d s2.
Proof. intros H. unfold wsum. do 2 f_equal. apply filter_ext. intros [w x]. apply H. Qed.
Lemma freq1_nonneg i a : 0 <= freq1 d pc K i a.
Proof.
  unfold freq1. apply Rmult_le_pos; [|left; now apply Rinv_0_lt_compat]. pose proof (wsum_nonneg d (fun x => Nat.eqb (x i) a) Hw).
  assert (0 <= pc / INR K) by (apply Rmult_le_pos; [exact Hpc|left; apply Rinv_0_lt_compat, KR]). lra.
Qed.
Lemma freq2_nonneg i j a b : 0 <= freq2 d pc K i j a b.
Proof.
  unfold freq2. apply Rmult_le_pos; [|left; now apply Rinv_0_lt_compat]. pose proof (wsum_nonneg d (fun x => Nat.eqb (x i) a && Nat.eqb (x j) b)%bool Hw).
  assert (0 <= pc / INR (K * K)) by (apply Rmult_le_pos; [exact Hpc|left; apply Rinv_0_lt_compat, lt_0_INR; nia]). lra.
Qed.
Lemma pc_split : INR K * (pc / INR (K * K)) = pc / INR K.
Proof. rewrite mult_INR. pose proof KR. field. lra. Qed.
Lemma freq1_sum i : (forall wx, In wx d -> (snd wx i < K)%nat) -> bsum K (freq1 d pc K i) = 1.
Proof.
  intros HV. unfold freq1. rewrite (bsum_div K (wsum d (fun _ => true) + pc) (fun a => wsum d (fun x => Nat.eqb (x i) a) + pc / INR K)). rewrite bsum_plus, bsum_const.
  rewrite (bsum_ext K _ (fun k => wsum d (fun x => Nat.eqb (x i) k && true)%bool)) by (intros k _; apply wsum_ext; intros x; now rewrite andb_true_r).
  rewrite (wsum_split K d i (fun _ => true) HV). pose proof KR. field. split; lra.
Qed.
Lemma freq2_row i j a : (forall wx, In wx d -> (snd wx j < K)%nat) -> bsum K (freq2 d pc K i j a) = freq1 d pc K i a.
Proof.
  intros HV. unfold freq2, freq1. rewrite (bsum_div K (wsum d (fun _ => true) + pc) (fun b => wsum d (fun x => Nat.eqb (x i) a && Nat.eqb (x j) b)%bool + pc / INR (K * K))). rewrite bsum_plus, bsum_const, pc_split.
  rewrite (bsum_ext K _ (fun k => wsum d (fun x => Nat.eqb (x j) k && Nat.eqb (x i) a)%bool)) by (intros k _; apply wsum_ext; intros x; apply andb_comm).
  now rewrite (wsum_split K d j (fun x => Nat.eqb (x i) a) HV).
Qed.
Lemma freq2_col i j b : (forall wx, In wx d -> (snd wx i < K)%nat) -> bsum K (fun a => freq2 d pc K i j a b) = freq1 d pc K j b.
Proof.
  intros HV. unfold freq2, freq1. rewrite (bsum_div K (wsum d (fun _ => true) + pc) (fun a => wsum d (fun x => Nat.eqb (x i) a && Nat.eqb (x j) b)%bool + pc / INR (K * K))). rewrite bsum_plus, bsum_const, pc_split.
  now rewrite (wsum_split K d i (fun x => Nat.eqb (x j) b) HV).
Qed.
Lemma freq_table i j : (forall wx, In wx d -> (snd wx i < K)%nat) -> (forall wx, In wx d -> (snd wx j < K)%nat) ->
  joint_table K (freq2 d pc K i j) (freq1 d pc K i) (freq1 d pc K j).
Proof.
  intros Hi Hj. split; [intros; apply freq2_nonneg|]. split; [intros a _; now apply freq2_row|]. split; [intros b _; now apply freq2_col|]. split; now apply freq1_sum.
Qed.
Lemma freq2_sym i j a b : freq2 d pc K i j a b = freq2 d pc K j i b a.
Proof. unfold freq2. do 2 f_equal. apply wsum_ext. intros x. apply andb_comm. Qed.
End Freq.

(** *** mutual information of a joint table *)
Lemma table_le K p q r a b : joint_table K p q r -> (a < K)%nat -> (b < K)%nat -> p a b <= q a /\ p a b <= r b.
Proof.
  intros (H0 & Hq & Hr & _) Ha Hb. split.
  - rewrite <- (Hq a Ha). apply (bsum_term_le K (p a) b Hb). intros; now apply H0.
  - rewrite <- (Hr b Hb). apply (bsum_term_le K (fun a => p a b) a Ha). intros; now apply H0.
Qed.
Lemma mi_terms K p q r : joint_table K p q r -> mutual_information K p = bsum K (fun a => bsum K (fun b => p a b * (ln (p a b) - ln (q a) - ln (r b)))).
Proof.
  intros HT. destruct HT as (H0 & Hq & Hr & Hs). unfold mutual_information. apply bsum_ext. intros a Ha. apply bsum_ext. intros b Hb. rewrite (Hq a Ha), (Hr b Hb).
  destruct (H0 a b Ha Hb) as [P|E]; [|rewrite <- E; ring]. destruct (table_le K p q r a b (conj H0 (conj Hq (conj Hr Hs))) Ha Hb).
  rewrite MeasureProofs.ln_div; [|exact P|apply Rmult_lt_0_compat; lra]. rewrite ln_mult by lra. ring.
Qed.
Lemma mi_nonneg K p q r : joint_table K p q r -> 0 <= mutual_information K p.
Proof.
  intros HT. pose proof HT as (H0 & Hq & Hr & Sq & Sr). rewrite (mi_terms K p q r HT).
  apply Rle_trans with (bsum K (fun a => bsum K (fun b => p a b - q a * r b))).
  - rewrite (bsum_ext K _ (fun a => q a + (-1) * q a)).
    + rewrite bsum_plus, bsum_scal, Sq. lra.
    + intros a Ha. rewrite (bsum_ext K _ (fun b => p a b + (- q a) * r b)) by (intros; ring). rewrite bsum_plus, bsum_scal, Sr, (Hq a Ha). ring.
  - apply bsum_le. intros a Ha. apply bsum_le. intros b Hb. destruct (table_le K p q r a b HT Ha Hb) as [L1 L2].
    destruct (H0 a b Ha Hb) as [P|E].
    + assert (Q : 0 < q a) by lra. assert (R0 : 0 < r b) by lra.
      pose proof (ln_le_sub1 (q a * r b / p a b)) as L. assert (QR : 0 < q a * r b) by now apply Rmult_lt_0_compat.
      specialize (L ltac:(apply Rdiv_lt_0_compat; assumption)). rewrite MeasureProofs.ln_div, ln_mult in L by assumption.
      apply Rmult_le_compat_l with (r := p a b) in L; [|lra]. replace (p a b * (q a * r b / p a b - 1)) with (q a * r b - p a b) in L by (field; lra). lra.
    + rewrite <- E in *. pose proof (Rmult_le_pos (q a) (r b) L1 L2). lra.
Qed.
Lemma mi_swap K p q r : joint_table K p q r -> mutual_information K (fun b a => p a b) = mutual_information K p.
Proof.
  intros HT. rewrite (mi_terms K p q r HT). destruct HT as (H0 & Hq & Hr & Sq & Sr).
  rewrite (mi_terms K (fun b a => p a b) r q); [|split; [intros; now apply H0|split; [exact Hr|split; [exact Hq|split; assumption]]]].
  rewrite bsum_swap. apply bsum_ext. intros a _. apply bsum_ext. intros b _. ring.
Qed.

(** *** binary data *)
Lemma bit_bitn c : bit c = INR (bitn c).
Proof. unfold bit, bitn. destruct c as [v|]; [destruct (Req_EM_T v 0)|]; reflexivity. Qed.
Lemma bitn_lt c : (bitn c < 2)%nat.
Proof. unfold bitn. destruct c as [v|]; [destruct (Req_EM_T v 0)|]; lia. Qed.
Lemma bin_rows_lt data ws i : forall wx, In wx (bin_rows data ws) -> (snd wx i < 2)%nat.
Proof. intros wx H. apply in_map_iff in H. destruct H as (rw & <- & _). cbn. apply bitn_lt. Qed.
Lemma lsumR_cons a l : lsumR (a :: l) = a + lsumR l.
Proof. reflexivity. Qed.
Lemma rsum_wsum data ws (g : (nat -> option R) -> R) (sel : (nat -> nat) -> bool) : (forall r, g r = if sel (fun i => bitn (r i)) then 1 else 0) ->
  rsum (combine data ws) g = wsum (bin_rows data ws) sel.
Proof.
  intros H. unfold rsum, wsum, bin_rows. induction (combine data ws) as [|[r w] l IH]; [reflexivity|]. cbn [map filter snd fst]. rewrite lsumR_cons, H.
  destruct (sel _); cbn [map fst]; rewrite ?lsumR_cons, IH; ring.
Qed.
Lemma combine_fst_total {A} (data : list A) : forall ws, length ws = length data -> lsumR (map snd (combine data ws)) = lsumR ws.
Proof. induction data as [|a data IH]; intros [|w ws] H; try discriminate; [reflexivity|]. cbn [combine map snd]. rewrite !lsumR_cons, IH; [reflexivity|now injection H]. Qed.
Lemma bin_total data ws : length ws = length data -> wsum (bin_rows data ws) (fun _ => true) = lsumR ws.
Proof.
  intros H. rewrite <- (combine_fst_total data ws H). unfold wsum, bin_rows. rewrite PromGraph.filter_id by auto. rewrite map_map. f_equal. 
Qed.
Lemma all_finite_len ws l : all_finite ws = Some l -> length l = length ws.
Proof.
  revert l. induction ws as [|[a|] ws IH]; intros l H; cbn in H; [injection H as <-; reflexivity| |discriminate].
  destruct (all_finite ws); [|discriminate]. injection H as <-. cbn. now rewrite (IH l0).
Qed.
Lemma sample_weights_len n weights ws : sample_weights n weights = Ok ws -> length ws = n.
Proof.
  unfold sample_weights. destruct weights as [l|]; [|intros E; injection E as <-; apply repeat_length].
  destruct (Nat.eqb_spec (length l) n); [|discriminate]. cbn [negb]. destruct (all_finite l) eqn:E; [|discriminate]. intros E2. injection E2 as <-. now rewrite (all_finite_len _ _ E).
Qed.
Lemma bin_rows_nonneg data ws : nonneg_weights ws -> forall wx, In wx (bin_rows data ws) -> 0 <= fst wx.
Proof.
  intros H wx Hx. apply in_map_iff in Hx. destruct Hx as ([r w] & <- & Hx). cbn. apply in_combine_r in Hx. unfold nonneg_weights in H. rewrite Forall_forall in H. now apply H.
Qed.
Lemma rle0_false x : rle0 x = false <-> 0 < x.
Proof. unfold rle0. destruct (Rle_dec x 0); split; intros; try discriminate; try lra; reflexivity. Qed.
Lemma rlt0_false x : rlt0 x = false <-> 0 <= x.
Proof. unfold rlt0. destruct (Rlt_dec x 0); split; intros; try discriminate; try lra; reflexivity. Qed.

Lemma marginal_binary_spec data weights pc ws : 0 <= pc -> sample_weights (length data) weights = Ok ws -> nonneg_weights ws -> 0 < lsumR ws + pc ->
  let d := bin_rows data ws in
  exists P, pairwise_marginal_binary data weights pc = Ok P /\
    (forall i j a b, (a < 2)%nat -> (b < 2)%nat -> i <> j -> P i j (2 * a + b)%nat = freq2 d pc 2 i j a b) /\
    (forall i, P i i 0%nat = freq1 d pc 2 i 0 /\ P i i 1%nat = 0 /\ P i i 2%nat = 0 /\ P i i 3%nat = freq1 d pc 2 i 1).
Proof.
  intros Hpc EW NW HZ d. unfold pairwise_marginal_binary. rewrite (proj2 (rlt0_false pc) Hpc), EW. cbn [bind].
  rewrite (proj2 (rle0_false _) HZ). eexists. split; [reflexivity|].
  pose proof (bin_total data ws (sample_weights_len _ _ _ EW)) as BT. fold d in BT.
  assert (HV : forall i wx, In wx d -> (snd wx i < 2)%nat) by (intros i; apply bin_rows_lt).
  assert (HN : forall wx, In wx d -> 0 <= fst wx) by now apply bin_rows_nonneg.
  assert (C11 : forall i j, rsum (combine data ws) (fun r => bit (r i) * bit (r j)) = wsum d (fun x => Nat.eqb (x i) 1 && Nat.eqb (x j) 1)%bool).
  { intros i j. apply rsum_wsum. intros r. rewrite !bit_bitn. pose proof (bitn_lt (r i)). pose proof (bitn_lt (r j)). destruct (bitn (r i)) as [|[|]], (bitn (r j)) as [|[|]]; cbn; try lia; lra. }
  assert (C10 : forall i j, rsum (combine data ws) (fun r => bit (r i) * (1 - bit (r j))) = wsum d (fun x => Nat.eqb (x i) 1 && Nat.eqb (x j) 0)%bool).
  { intros i j. apply rsum_wsum. intros r. rewrite !bit_bitn. pose proof (bitn_lt (r i)). pose proof (bitn_lt (r j)). destruct (bitn (r i)) as [|[|]], (bitn (r j)) as [|[|]]; cbn; try lia; lra. }
  assert (C01 : forall i j, rsum (combine data ws) (fun r => (1 - bit (r i)) * bit (r j)) = wsum d (fun x => Nat.eqb (x i) 0 && Nat.eqb (x j) 1)%bool).
  { intros i j. apply rsum_wsum. intros r. rewrite !bit_bitn. pose proof (bitn_lt (r i)). pose proof (bitn_lt (r j)). destruct (bitn (r i)) as [|[|]], (bitn (r j)) as [|[|]]; cbn; try lia; lra. }
  assert (TOT : forall i j, wsum d (fun x => Nat.eqb (x i) 0 && Nat.eqb (x j) 0)%bool + wsum d (fun x => Nat.eqb (x i) 0 && Nat.eqb (x j) 1)%bool
     + (wsum d (fun x => Nat.eqb (x i) 1 && Nat.eqb (x j) 0)%bool + wsum d (fun x => Nat.eqb (x i) 1 && Nat.eqb (x j) 1)%bool) = lsumR ws).
  { intros i j. rewrite <- BT. rewrite <- (wsum_split 2 d i (fun _ => true) (HV i)). cbn [bsum].
    assert (E : forall k, wsum d (fun x => Nat.eqb (x i) k && true)%bool = bsum 2 (fun b => wsum d (fun x => Nat.eqb (x j) b && Nat.eqb (x i) k)%bool)).
    { intros k. rewrite (wsum_split 2 d j (fun x => Nat.eqb (x i) k) (HV j)). apply wsum_ext. intros x. apply andb_true_r. }
    rewrite !E. cbn [bsum].
    rewrite (wsum_ext d (fun x => Nat.eqb (x j) 0 && Nat.eqb (x i) 0)%bool (fun x => Nat.eqb (x i) 0 && Nat.eqb (x j) 0)%bool) by (intros; apply andb_comm).
    rewrite (wsum_ext d (fun x => Nat.eqb (x j) 1 && Nat.eqb (x i) 0)%bool (fun x => Nat.eqb (x i) 0 && Nat.eqb (x j) 1)%bool) by (intros; apply andb_comm).
    rewrite (wsum_ext d (fun x => Nat.eqb (x j) 0 && Nat.eqb (x i) 1)%bool (fun x => Nat.eqb (x i) 1 && Nat.eqb (x j) 0)%bool) by (intros; apply andb_comm).
    rewrite (wsum_ext d (fun x => Nat.eqb (x j) 1 && Nat.eqb (x i) 1)%bool (fun x => Nat.eqb (x i) 1 && Nat.eqb (x j) 1)%bool) by (intros; apply andb_comm). ring. }
  assert (C00 : forall i j, Rmax (lsumR ws - wsum d (fun x => Nat.eqb (x i) 1 && Nat.eqb (x j) 1)%bool - wsum d (fun x => Nat.eqb (x i) 1 && Nat.eqb (x j) 0)%bool - wsum d (fun x => Nat.eqb (x i) 0 && Nat.eqb (x j) 1)%bool) 0
     = wsum d (fun x => Nat.eqb (x i) 0 && Nat.eqb (x j) 0)%bool).
  { intros i j. pose proof (wsum_nonneg d (fun x => Nat.eqb (x i) 0 && Nat.eqb (x j) 0)%bool HN). rewrite <- (TOT i j). rewrite Rmax_left; lra. }
  assert (F4 : INR (2 * 2) = 4) by (cbn; lra). assert (F2 : INR 2 = 2) by (cbn; lra). split.
  - intros i j a b Ha Hb N. apply Nat.eqb_neq in N. rewrite N. unfold freq2. rewrite BT, F4.
    destruct a as [|[|]]; [| |lia]; (destruct b as [|[|]]; [| |lia]); cbn [Nat.mul Nat.add]; rewrite ?C11, ?C10, ?C01, ?C00; reflexivity.
  - intros i. rewrite Nat.eqb_refl. unfold freq1. rewrite BT, F2, C11, C10, C01, C00.
    assert (E0 : wsum d (fun x => Nat.eqb (x i) 0 && Nat.eqb (x i) 0)%bool = wsum d (fun x => Nat.eqb (x i) 0)) by (apply wsum_ext; intros x; apply andb_diag).
    assert (E1 : wsum d (fun x => Nat.eqb (x i) 1 && Nat.eqb (x i) 1)%bool = wsum d (fun x => Nat.eqb (x i) 1)) by (apply wsum_ext; intros x; apply andb_diag).
    rewrite E0, E1. repeat split; field; lra.
Qed.

Lemma xlogy_exact eps p q : (0 < p -> eps <= q) -> 0 <= p -> xlogy eps p q = p * ln q.
Proof.
  intros H Hp. unfold xlogy. destruct (Req_EM_T p 0) as [->|N]; [ring|]. rewrite Rmax_left; [reflexivity|]. apply H. lra.
Qed.
Lemma mi_binary_spec data weights pc eps ws f : 0 <= pc -> sample_weights (length data) weights = Ok ws -> nonneg_weights ws -> 0 < lsumR ws + pc ->
  let d := bin_rows data ws in
  exists mi, pairwise_mi_binary data weights pc eps = Ok mi /\ (forall i j, mi i j = mi j i) /\
    (not_rare d pc eps 2 f ->
     (forall i j a b, (i < f)%nat -> (j < f)%nat -> (a < 2)%nat -> (b < 2)%nat -> 0 < freq1 d pc 2 i a -> 0 < freq1 d pc 2 j b -> eps <= freq1 d pc 2 i a * freq1 d pc 2 j b) ->
     0 < eps <= 1 ->
     forall i j, (i < f)%nat -> (j < f)%nat -> mi i j = if Nat.eqb i j then entropy 2 (freq1 d pc 2 i) else mutual_information 2 (freq2 d pc 2 i j)).
Proof.
  intros Hpc EW NW HZ d. destruct (marginal_binary_spec data weights pc ws Hpc EW NW HZ) as (P & EP & OFF & DIAG). fold d in OFF, DIAG.
  unfold pairwise_mi_binary. rewrite EP. cbn [bind]. eexists. split; [reflexivity|].
  pose proof (bin_total data ws (sample_weights_len _ _ _ EW)) as BT. fold d in BT.
  assert (HV : forall i wx, In wx d -> (snd wx i < 2)%nat) by (intros i; apply bin_rows_lt).
  assert (HN : forall wx, In wx d -> 0 <= fst wx) by now apply bin_rows_nonneg.
  assert (HZ' : 0 < wsum d (fun _ => true) + pc) by (rewrite BT; exact HZ).
  assert (OFF' : forall i j, i <> j -> P i j 0%nat = freq2 d pc 2 i j 0 0 /\ P i j 1%nat = freq2 d pc 2 i j 0 1 /\ P i j 2%nat = freq2 d pc 2 i j 1 0 /\ P i j 3%nat = freq2 d pc 2 i j 1 1).
  { intros i j N. repeat split; [apply (OFF i j 0%nat 0%nat)|apply (OFF i j 0%nat 1%nat)|apply (OFF i j 1%nat 0%nat)|apply (OFF i j 1%nat 1%nat)]; (lia || assumption). }
  split.
  - intros i j. destruct (Nat.eq_dec i j) as [->|N]; [reflexivity|].
    destruct (OFF' i j N) as (A0 & A1 & A2 & A3). destruct (OFF' j i (not_eq_sym N)) as (B0 & B1 & B2 & B3). cbn [bsum].
    rewrite A0, A1, A2, A3, B0, B1, B2, B3, (freq2_sym d pc 2 j i 0 0), (freq2_sym d pc 2 j i 0 1), (freq2_sym d pc 2 j i 1 0), (freq2_sym d pc 2 j i 1 1).
    rewrite (Rmult_comm (P j j 0%nat) (P i i 0%nat)), (Rmult_comm (P j j 0%nat) (P i i 3%nat)), (Rmult_comm (P j j 3%nat) (P i i 0%nat)), (Rmult_comm (P j j 3%nat) (P i i 3%nat)). ring.
  - intros NR NP HE i j Hi Hj. destruct (DIAG i) as (D0 & D1 & D2 & D3). destruct (DIAG j) as (G0 & G1 & G2 & G3).
    pose proof (freq1_nonneg d pc 2 ltac:(lia) Hpc HN HZ') as N1. pose proof (freq2_nonneg d pc 2 ltac:(lia) Hpc HN HZ') as N2.
    destruct (Nat.eqb_spec i j) as [->|N]; cbn [bsum].
    + rewrite D0, D1, D2, D3. unfold entropy. cbn [bsum].
      assert (Z : forall q, xlogy eps 0 q = 0) by (intros q; unfold xlogy; destruct (Req_EM_T 0 0); [reflexivity|congruence]). rewrite !Z.
      assert (SQ : forall a, (a < 2)%nat -> 0 < freq1 d pc 2 j a -> eps <= freq1 d pc 2 j a).
      { intros a Ha P0. pose proof (NP j j a a Hj Hj Ha Ha P0 P0). destruct (Rle_dec (freq1 d pc 2 j a) 1); [nra|lra]. }
      rewrite !xlogy_exact; auto; try (intros; apply NP; auto; lia).
      assert (LN : forall x, 0 <= x -> x * ln (x * x) = 2 * (x * ln x)).
      { intros x [Px|<-]; [rewrite ln_mult by assumption; ring|ring]. }
      rewrite !LN by apply N1. ring.
    + destruct (OFF' i j N) as (A0 & A1 & A2 & A3). rewrite A0, A1, A2, A3, D0, D3, G0, G3.
      pose proof (freq_table d pc 2 ltac:(lia) Hpc HN HZ' i j (HV i) (HV j)) as TB.
      rewrite (mi_terms 2 _ _ _ TB). cbn [bsum].
      assert (X : forall a b, (a < 2)%nat -> (b < 2)%nat -> xlogy eps (freq2 d pc 2 i j a b) (freq2 d pc 2 i j a b) - xlogy eps (freq2 d pc 2 i j a b) (freq1 d pc 2 i a * freq1 d pc 2 j b)
         = freq2 d pc 2 i j a b * (ln (freq2 d pc 2 i j a b) - ln (freq1 d pc 2 i a) - ln (freq1 d pc 2 j b))).
      { intros a b Ha Hb. destruct (table_le 2 _ _ _ a b TB Ha Hb) as [L1 L2].
        rewrite !xlogy_exact; auto.
        - destruct (N2 i j a b) as [PP|E0]; [|rewrite <- E0; ring]. rewrite ln_mult by lra. ring.
        - intros PP. apply NP; auto; lra. }
      rewrite !X by lia. ring.
Qed.
