(** Categorical mutual information: the batched bincount counts pairs (HcltMiModel). *)
From Coq Require Import List Arith ZArith Bool Reals Lia Lra.
From Verif Require MeasureProofs PromGraph ConvProofs.
From Verif Require Import Base CltSpec CltFit MstModel MstKruskal HcltMiModel HcltSpec HcltMiProofs.
Import ListNotations.
Local Open Scope R_scope.

Lemma chunks_concat {A} size : (0 < size)%nat -> forall fuel (l : list A), (length l <= fuel)%nat -> concat (chunks fuel size l) = l.
Proof.
  intros Hs. induction fuel as [|k IH]; intros l Hl; [destruct l; [reflexivity|cbn in Hl; lia]|]. cbn [chunks]. destruct l as [|a l]; [reflexivity|].
  cbn [concat]. rewrite IH; [apply firstn_skipn|]. rewrite skipn_length. cbn [length] in *. lia.
Qed.
Lemma filter_sum {A} (p : A -> bool) (g : A -> R) l : lsumR (map g (filter p l)) = lsumR (map (fun x => if p x then g x else 0) l).
Proof. induction l as [|a l IH]; [reflexivity|]. cbn [filter map]. destruct (p a); cbn [map]; rewrite !lsumR_cons, IH; ring. Qed.
Definition swap_rows (rows : list ((nat -> nat) * R)) : list (R * (nat -> nat)) := map (fun rw => (snd rw, fst rw)) rows.
Lemma rsum_swap rows (g : (nat -> nat) -> R) (sel : (nat -> nat) -> bool) : (forall r, g r = if sel r then 1 else 0) ->
  rsum rows g = wsum (swap_rows rows) sel.
Proof.
  intros H. unfold rsum, wsum, swap_rows. rewrite filter_sum, map_map. apply lsumR_map_ext. intros [r w] _. cbn [fst snd]. rewrite H. destruct (sel r); ring.
Qed.

Lemma bincount_pairs K rows pairs b a c : (b < length pairs)%nat -> (a < K)%nat -> (c < K)%nat ->
  (forall rw e, In rw rows -> In e pairs -> (fst rw (fst e) < K)%nat /\ (fst rw (snd e) < K)%nat) ->
  bincount (chunk_codes K rows pairs) (b * (K * K) + (a * K + c)) =
  wsum (swap_rows rows) (fun x => Nat.eqb (x (fst (nth b pairs (0, 0)%nat))) a && Nat.eqb (x (snd (nth b pairs (0, 0)%nat))) c)%bool.
Proof.
  intros Hb Ha Hc HV. unfold bincount. rewrite filter_sum. unfold chunk_codes, wsum, swap_rows. rewrite filter_sum.
  induction rows as [|[r w] rows IH]; [reflexivity|]. cbn [flat_map map fst snd]. rewrite map_app, lsumR_app, lsumR_cons. rewrite IH by (intros; apply HV; [now right|assumption]).
  f_equal. rewrite map_map. rewrite lsumR_seq. cbn [fst snd]. rewrite (bsum_single (length pairs) _ b Hb).
  - destruct (HV (r, w) (nth b pairs (0, 0)%nat)) as [H1 H2]; [now left|now apply nth_In|]. cbn [fst snd] in H1, H2.
    set (u := r (fst (nth b pairs (0, 0)%nat))) in *. set (v := r (snd (nth b pairs (0, 0)%nat))) in *.
    destruct (Nat.eqb_spec (u * K + v + b * (K * K)) (b * (K * K) + (a * K + c))) as [E|E].
    + assert (E' : (u * K + v = a * K + c)%nat) by lia. destruct (ConvProofs.div_mod_enc K u v H2) as [D1 D2]. destruct (ConvProofs.div_mod_enc K a c Hc) as [D3 D4].
      rewrite E' in D1, D2. replace u with a by congruence. replace v with c by congruence. now rewrite !Nat.eqb_refl.
    + destruct (Nat.eqb_spec u a) as [->|]; cbn [andb]; [|reflexivity]. destruct (Nat.eqb_spec v c) as [->|]; [|reflexivity]. elim E. lia.
  - intros b' Hb' N. destruct (HV (r, w) (nth b' pairs (0, 0)%nat)) as [H1 H2]; [now left|now apply nth_In|]. cbn [fst snd] in H1, H2.
    set (u := r (fst (nth b' pairs (0, 0)%nat))) in *. set (v := r (snd (nth b' pairs (0, 0)%nat))) in *.
    destruct (Nat.eqb_spec (u * K + v + b' * (K * K)) (b * (K * K) + (a * K + c))) as [E|E]; [|reflexivity]. exfalso. apply N.
    assert (L1 : (u * K + v < K * K)%nat) by nia. assert (L2 : (a * K + c < K * K)%nat) by nia.
    destruct (ConvProofs.div_mod_enc (K * K) b' (u * K + v) L1) as [D1 _]. destruct (ConvProofs.div_mod_enc (K * K) b (a * K + c) L2) as [D3 _].
    rewrite (Nat.add_comm (u * K + v)) in E. rewrite E in D1. congruence.
Qed.

Lemma find_spec {B} (vals : list (medge * B)) e : (exists v, In (e, v) vals) -> exists v, find (fun ev => eqe (fst ev) e) vals = Some (e, v) /\ In (e, v) vals.
Proof.
  intros (v & Hv). induction vals as [|[f u] vals IH]; [contradiction|]. cbn [find fst].
  destruct (eqe f e) eqn:E.
  - assert (f = e). { unfold eqe in E. apply andb_prop in E. destruct E as [E1 E2]. apply Nat.eqb_eq in E1, E2. destruct f, e; cbn in *; congruence. } subst f. exists u. split; [reflexivity|now left].
  - destruct Hv as [Hv|Hv]; [injection Hv as -> ->; unfold eqe in E; rewrite !Nat.eqb_refl in E; discriminate|]. destruct (IH Hv) as (v' & E1 & I1). exists v'. split; [exact E1|now right].
Qed.

Lemma chunk_incl {A} size : forall fuel (l : list A) ch, In ch (chunks fuel size l) -> incl ch l.
Proof.
  induction fuel as [|k IH]; intros l ch H; [contradiction|]. cbn [chunks] in H. destruct l as [|a l]; [contradiction|]. destruct H as [<-|H].
  - intros x Hx. rewrite <- (firstn_skipn size (a :: l)). apply in_or_app. now left.
  - intros x Hx. rewrite <- (firstn_skipn size (a :: l)). apply in_or_app. right. now apply (IH _ _ H).
Qed.

Lemma bsum_pos_ex m (g : nat -> R) : 0 < bsum m g -> exists c, (c < m)%nat /\ 0 < g c.
Proof.
  induction m as [|m IH]; cbn [bsum]; [lra|]. intros H. destruct (Rlt_dec 0 (g m)) as [P|P]; [exists m; split; [lia|exact P]|].
  destruct IH as (c & Hc & Pc); [lra|]. exists c. split; [lia|exact Pc].
Qed.

Lemma all_values_In f data z : In z (all_values f data) <-> exists r i, In r data /\ (i < f)%nat /\ zval r i = z.
Proof.
  unfold all_values. rewrite in_flat_map. split.
  - intros (r & Hr & H). apply in_map_iff in H. destruct H as (i & E & Hi). apply in_seq in Hi. exists r, i. split; [exact Hr|]. split; [lia|exact E].
  - intros (r & i & Hr & Hi & E). exists r. split; [exact Hr|]. apply in_map_iff. exists i. split; [exact E|]. apply in_seq. lia.
Qed.
Lemma complete_spec f data : complete f data = true <-> forall r i, In r data -> (i < f)%nat -> r i <> None.
Proof.
  unfold complete. rewrite forallb_forall. split.
  - intros H r i Hr Hi E. specialize (H r Hr). rewrite forallb_forall in H. specialize (H i ltac:(apply in_seq; lia)). rewrite E in H. discriminate.
  - intros H r Hr. apply forallb_forall. intros i Hi. apply in_seq in Hi. specialize (H r i Hr ltac:(lia)). destruct (r i); [reflexivity|congruence].
Qed.
Lemma range_check f K data : complete f data = true -> (existsb (fun z => (Z.ltb z 0 || Z.leb (Z.of_nat K) z)%bool) (all_values f data) = false <-> in_range f K data).
Proof.
  rewrite complete_spec. intros HC. split.
  - intros H r i Hr Hi. specialize (HC r i Hr Hi). destruct (r i) as [z|] eqn:E; [|congruence]. exists z. split; [reflexivity|].
    assert (I : In z (all_values f data)) by (apply all_values_In; exists r, i; split; [exact Hr|split; [exact Hi|unfold zval; now rewrite E]]).
    rewrite <- not_true_iff_false, existsb_exists in H. destruct (Z.ltb_spec z 0) as [L|L]; [elim H; exists z; split; [exact I|]; apply orb_true_iff; left; now apply Z.ltb_lt|].
    destruct (Z.leb_spec (Z.of_nat K) z) as [L2|L2]; [elim H; exists z; split; [exact I|]; apply orb_true_iff; right; now apply Z.leb_le|]. lia.
  - intros H. apply not_true_iff_false. rewrite existsb_exists. intros (z & Hz & E). apply all_values_In in Hz. destruct Hz as (r & i & Hr & Hi & <-).
    destruct (H r i Hr Hi) as (z & Ez & Rz). unfold zval in E. rewrite Ez in E. apply orb_prop in E. destruct E as [E|E]; [apply Z.ltb_lt in E|apply Z.leb_le in E]; lia.
Qed.

Lemma cat_rows_swap data : forall ws, cat_rows data ws = swap_rows (combine (map (fun r i => Z.to_nat (zval r i)) data) ws).
Proof. unfold cat_rows, swap_rows. induction data as [|r data IH]; intros [|w ws]; try reflexivity. cbn [map combine]. now rewrite IH. Qed.
Section Cat.
Context (f : nat) (data : list (nat -> option Z)) (num_cats : option nat) (weights : option (list (option R))) (pc eps : R) (chunk : nat) (ws : list R).
Let K := infer_cats f data num_cats.
Let n := length data.
Context (Hpc : 0 <= pc) (Hch : (0 < chunk)%nat) (HK : (0 < K)%nat) (HR : in_range f K data)
  (EW : sample_weights n weights = Ok ws) (NW : nonneg_weights ws) (Hn : weights = None \/ (0 < n)%nat).
Let pc' := cat_pc weights n pc ws.
Context (HZ : 0 < lsumR ws + pc').
Let d := cat_rows data ws.
Let rows := combine (map (fun r i => Z.to_nat (zval r i)) data) ws.

Lemma ws_sum_nonneg : 0 <= lsumR ws.
Proof. clear -NW. unfold nonneg_weights in NW. induction ws as [|a l IH]; [cbn; lra|]. rewrite lsumR_cons. inversion NW; subst. specialize (IH H2). lra. Qed.
Lemma pc'_nonneg : 0 <= pc'.
Proof.
  unfold pc', cat_pc. destruct weights; [|exact Hpc]. destruct Hn as [H|H]; [discriminate|].
  apply Rmult_le_pos; [apply Rmult_le_pos; [exact Hpc|exact ws_sum_nonneg]|left; apply Rinv_0_lt_compat, lt_0_INR, H].
Qed.
Lemma rows_lt rw i : In rw rows -> (i < f)%nat -> (fst rw i < K)%nat.
Proof.
  intros H Hi. destruct rw as [r w]. apply in_combine_l in H. apply in_map_iff in H. destruct H as (r0 & <- & H0). cbn [fst]. destruct (HR r0 i H0 Hi) as (z & E & Rz). unfold zval. rewrite E. lia.
Qed.
Lemma d_lt i wx : (i < f)%nat -> In wx d -> (snd wx i < K)%nat.
Proof. unfold d. rewrite cat_rows_swap. intros Hi H. apply in_map_iff in H. destruct H as (rw & <- & Hr). cbn [snd]. now apply rows_lt. Qed.
Lemma d_nonneg wx : In wx d -> 0 <= fst wx.
Proof. intros H. apply in_map_iff in H. destruct H as ([r w] & <- & Hr). cbn. apply in_combine_r in Hr. unfold nonneg_weights in NW. rewrite Forall_forall in NW. now apply NW. Qed.
Lemma d_total : wsum d (fun _ => true) = lsumR ws.
Proof.
  unfold wsum, d. rewrite cat_rows_swap. unfold swap_rows. rewrite PromGraph.filter_id by auto. rewrite map_map. cbn [fst]. apply combine_fst_total. rewrite map_length. apply (sample_weights_len n weights). exact EW.
Qed.

Lemma mi_cat_spec : exists mi, pairwise_mi_categorical f data num_cats weights pc eps chunk = Ok mi /\ (forall i j, mi i j = mi j i) /\
  let p1 := freq1 d pc' K in let p2 := freq2 d pc' K in let lg p := ln (Rmax p eps) in
  (forall i, mi i i = - bsum K (fun k => p1 i k * lg (p1 i k))) /\
  (forall i j, (i < j < f)%nat -> mi i j = bsum K (fun a => bsum K (fun c => p2 i j a c * (lg (p2 i j a c) - lg (p1 i a) - lg (p1 j c))))).
Proof.
  unfold pairwise_mi_categorical. rewrite (proj2 (rlt0_false pc) Hpc). replace (Nat.eqb chunk 0) with false by (symmetry; apply Nat.eqb_neq; lia).
  assert (CO : complete f data = true) by (apply complete_spec; intros r i Hr Hi; destruct (HR r i Hr Hi) as (z & -> & _); discriminate).
  rewrite CO. cbn [negb]. fold K. replace (Nat.eqb K 0) with false by (symmetry; apply Nat.eqb_neq; lia).
  rewrite (proj2 (range_check f K data CO) HR). fold n. rewrite EW. cbn [bind].
  replace (match weights with Some _ => Nat.eqb n 0 | None => false end) with false.
  2:{ destruct weights; [|reflexivity]. destruct Hn as [H|H]; [discriminate|]. symmetry. apply Nat.eqb_neq. lia. }
  cbv zeta. fold (cat_pc weights n pc ws). fold pc'. fold rows. rewrite (proj2 (rle0_false _) HZ).
  assert (P1 : forall i k, (rsum rows (fun r => if Nat.eqb (r i) k then 1 else 0) + pc' / INR K) / (lsumR ws + pc') = freq1 d pc' K i k).
  { intros i k. unfold freq1. rewrite d_total. rewrite (rsum_swap rows _ (fun r => Nat.eqb (r i) k)) by reflexivity. unfold d. now rewrite cat_rows_swap. }
  eexists. split; [reflexivity|]. split; [|split].
  - intros i j. rewrite (Nat.eqb_sym j i). destruct (Nat.eqb_spec i j) as [->|N]; [reflexivity|].
    replace (canon (j, i)) with (canon (i, j)); [reflexivity|]. unfold canon. cbn [fst snd]. destruct (Nat.leb_spec i j), (Nat.leb_spec j i); try reflexivity; lia.
  - intros i. rewrite Nat.eqb_refl. f_equal. apply bsum_ext. intros k _. now rewrite !P1.
  - intros i j Hij. replace (Nat.eqb i j) with false by (symmetry; apply Nat.eqb_neq; lia).
    replace (canon (i, j)) with (i, j) by (unfold canon; cbn [fst snd]; destruct (Nat.leb_spec i j); [reflexivity|lia]).
    match goal with |- context [find _ ?v] => set (vals := v) end.
    assert (HI : forall u v, In (u, v) vals -> In u (triu f) /\ v = bsum K (fun a => bsum K (fun c => freq2 d pc' K (fst u) (snd u) a c * (ln (Rmax (freq2 d pc' K (fst u) (snd u) a c) eps) - ln (Rmax (freq1 d pc' K (fst u) a) eps) - ln (Rmax (freq1 d pc' K (snd u) c) eps))))).
    { intros u v H. unfold vals in H. apply in_flat_map in H. destruct H as (pairs & Hp & H). apply in_map_iff in H. destruct H as (b & E & Hb). apply in_seq in Hb. injection E as Eu Ev.
      assert (IP : incl pairs (triu f)) by now apply (chunk_incl chunk _ _ _ Hp).
      assert (IU : In u pairs) by (rewrite <- Eu; apply nth_In; lia). split; [now apply IP|]. rewrite <- Ev. apply bsum_ext. intros a Ha. apply bsum_ext. intros c Hc. rewrite Eu, !P1.
      rewrite (bincount_pairs K rows pairs b a c); [|lia|exact Ha|exact Hc|].
      - rewrite Eu. unfold freq2. rewrite d_total. unfold d. rewrite cat_rows_swap. reflexivity.
      - intros rw [e1 e2] Hr He. apply IP, triu_In in He. cbn [fst snd]. split; apply rows_lt; auto; lia. }
    destruct (find_spec vals (i, j)) as (v & EF & IV).
    { assert (IT : In (i, j) (triu f)) by now apply triu_In. rewrite <- (chunks_concat chunk Hch (length (triu f)) (triu f) (le_n _)) in IT. apply in_concat in IT. destruct IT as (pairs & Hp & IP).
      apply In_nth with (d := (0, 0)%nat) in IP. destruct IP as (b & Hb & EB). eexists. unfold vals. apply in_flat_map. exists pairs. split; [exact Hp|]. apply in_map_iff. exists b. split; [rewrite EB; reflexivity|]. apply in_seq. lia. }
    rewrite EF. cbn [snd]. apply (HI (i, j) v IV).
Qed.

(** exact mutual information when no possible pair of values is too rare *)
Lemma mi_cat_exact mi : pairwise_mi_categorical f data num_cats weights pc eps chunk = Ok mi -> 0 < eps -> not_rare d pc' eps K f ->
  (forall i j, (i < f)%nat -> (j < f)%nat -> i <> j -> mi i j = mutual_information K (freq2 d pc' K i j)) /\
  (forall i, (2 <= f)%nat -> (i < f)%nat -> mi i i = entropy K (freq1 d pc' K i)).
Proof.
  intros EM He NR. destruct mi_cat_spec as (mi' & EM' & SY & DG & OF). assert (mi' = mi) by congruence. subst mi'.
  assert (HZ' : 0 < wsum d (fun _ => true) + pc') by (rewrite d_total; exact HZ).
  pose proof (freq1_nonneg d pc' K HK pc'_nonneg d_nonneg HZ') as N1. pose proof (freq2_nonneg d pc' K HK pc'_nonneg d_nonneg HZ') as N2.
  assert (TB : forall i j, (i < f)%nat -> (j < f)%nat -> joint_table K (freq2 d pc' K i j) (freq1 d pc' K i) (freq1 d pc' K j)).
  { intros i j Hi Hj. apply (freq_table d pc' K HK pc'_nonneg d_nonneg HZ'); intros wx; apply d_lt; assumption. }
  assert (LT : forall i j, (i < j < f)%nat -> mi i j = mutual_information K (freq2 d pc' K i j)).
  { intros i j Hij. rewrite (OF i j Hij). pose proof (TB i j ltac:(lia) ltac:(lia)) as T. rewrite (mi_terms K _ _ _ T).
    apply bsum_ext. intros a Ha. apply bsum_ext. intros c Hc. destruct (table_le K _ _ _ a c T Ha Hc) as [L1 L2].
    destruct (N2 i j a c) as [P|E]; [|rewrite <- E; ring]. pose proof (NR i j a c ltac:(lia) ltac:(lia) ltac:(lia) Ha Hc P). rewrite !Rmax_left by lra. reflexivity. }
  split.
  - intros i j Hi Hj N. destruct (lt_eq_lt_dec i j) as [[L|E]|L]; [apply LT; lia|contradiction|]. rewrite SY, (LT j i) by lia.
    rewrite <- (mi_swap K _ _ _ (TB j i Hj Hi)). unfold mutual_information. apply bsum_ext. intros a _. apply bsum_ext. intros b _. rewrite (freq2_sym d pc' K j i b a).
    rewrite (bsum_ext K (fun a0 => freq2 d pc' K j i a0 a) (freq2 d pc' K i j a)) by (intros; apply freq2_sym).
    rewrite (bsum_ext K (fun a' => freq2 d pc' K j i b a') (fun a' => freq2 d pc' K i j a' b)) by (intros; apply freq2_sym). reflexivity.
  - intros i F2 Hi. rewrite DG. unfold entropy. f_equal. apply bsum_ext. intros a Ha. destruct (N1 i a) as [P|E]; [|rewrite <- E; ring].
    assert (exists j, (j < f)%nat /\ i <> j) as (j & Hj & N) by (exists (if Nat.eqb i 0 then 1 else 0)%nat; destruct (Nat.eqb_spec i 0); lia).
    pose proof (TB i j Hi Hj) as T. destruct T as (T0 & T1 & _). rewrite <- (T1 a Ha) in P.
    assert (EX : exists c, (c < K)%nat /\ 0 < freq2 d pc' K i j a c).
    { now apply bsum_pos_ex. }
    destruct EX as (c & Hc & PC). destruct (table_le K _ _ _ a c (TB i j Hi Hj) Ha Hc) as [L _]. pose proof (NR i j a c Hi Hj N Ha Hc PC). rewrite Rmax_left by lra. reflexivity.
Qed.
End Cat.
