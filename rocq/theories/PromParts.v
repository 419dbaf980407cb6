(** Prometheus: the partitions. *)
From Coq Require Import List Arith Bool Reals Lia Lra Permutation Sorted Relations.
From Verif Require Import Base ScopeModel CircuitModel LearnModel CltSpec CltPrim CnetModel CnetProofs PromModel PromSpec PromGraph.
Import ListNotations.
Local Open Scope nat_scope.

Lemma sorted_nth (S : list edge) e0 : StronglySorted (fun a b => weight a <= weight b)%R S -> forall i j, i <= j -> j < length S -> (weight (nth i S e0) <= weight (nth j S e0))%R.
Proof.
  induction 1 as [|x S SS IH F]; intros i j Hij Hj; [cbn in Hj; lia|]. destruct j as [|j]; [assert (i = 0) as -> by lia; lra|]. cbn in Hj. destruct i as [|i]; cbn [nth].
  - rewrite Forall_forall in F. apply F. apply nth_In. lia.
  - apply IH; lia.
Qed.
Lemma in_skipn {A} (l : list A) n x x0 : In x (skipn n l) <-> exists j, n <= j /\ j < length l /\ nth j l x0 = x.
Proof.
  revert n. induction l as [|a l IH]; intros n.
  - rewrite skipn_nil. split; [intros []|intros (j & _ & H & _); cbn in H; lia].
  - destruct n as [|n]; cbn [skipn].
    + split; [intros H; destruct (In_nth _ _ x0 H) as (j & Hj & E); exists j; auto with arith|intros (j & _ & Hj & <-); now apply nth_In].
    + rewrite IH. split.
      * intros (j & H1 & H2 & E). exists (S j). cbn. repeat split; auto; lia.
      * intros ([|j] & H1 & H2 & E); [lia|]. cbn in H2, E. exists j. repeat split; auto; lia.
Qed.
Definition e0 : edge := ((0, 0), 0%R).

Lemma sever_spec d T : edges_ok d T -> forest d (map ends T) -> exists W : list edge,
  Permutation T W /\ StronglySorted (fun a b => weight a <= weight b)%R W /\ length (sever d T) = length T /\ refining d (sever d T) /\
  (forall i, i < length T -> (S i < length T -> (weight (nth i W e0) < weight (nth (S i) W e0))%R) ->
     forall u v, same_block (nth i (sever d T) []) u v <-> u < d /\ v < d /\ linked (map ends (filter (gt (weight (nth i W e0))) T)) u v).
Proof.
  intros HE HF. set (W := ksort weight (iterate d T)). exists W.
  assert (PW : Permutation T W). { etransitivity; [apply (iterate_perm d)|apply ksort_perm]. intros [[u v] w] He. cbn. destruct (HE u v w He). lia. }
  assert (SW : StronglySorted (fun a b => weight a <= weight b)%R W) by apply ksort_sorted.
  assert (LW : length W = length T) by (symmetry; now apply Permutation_length).
  assert (HB := edges_bounded d T HE).
  assert (N : forall i, i < length T -> nth i (sever d T) [] = comps d (map ends (skipn (S i) W))).
  { intros i Hi. unfold sever. fold W. rewrite (nth_indep _ [] (comps d (map ends (skipn 0 W)))) by (rewrite map_length, seq_length; lia).
    rewrite (map_nth (fun i => comps d (map ends (skipn i W)))). rewrite seq_nth by lia. reflexivity. }
  assert (FS : forall i, i <= length T -> cnt d (labels (map ends (skipn i W))) + (length T - i) = d).
  { intros i Hi. assert (forest d (map ends (skipn i W))) as F.
    { apply (forest_sub d (map ends T) _ (map ends (firstn i W)) HB HF). rewrite <- map_app. apply Permutation_map. rewrite PW. rewrite <- (firstn_skipn i W) at 1. apply Permutation_app_comm. }
    unfold forest in F. rewrite map_length, skipn_length, LW in F. exact F. }
  split; [exact PW|]. split; [exact SW|]. assert (LS : length (sever d T) = length T) by (unfold sever; fold W; rewrite map_length, seq_length; exact LW).
  split; [exact LS|]. split; [split|].
  - intros i Hi. rewrite LS in Hi. rewrite N by exact Hi. split; [apply comps_partition|]. assert (HF' := HF). unfold forest in HF'. rewrite map_length in HF'. rewrite LS. specialize (FS (S i) ltac:(lia)). rewrite comps_length. unfold cnt in FS, HF' |- *. lia.
  - intros i Hi u v. rewrite LS in Hi. rewrite !N by lia. rewrite !comps_same. intros (Hu & Hv & L). do 2 (split; [assumption|]). revert L. apply linked_incl.
    intros e He. apply in_map_iff in He. destruct He as (x & <- & Hx). apply in_map. apply (in_skipn _ _ _ e0) in Hx. apply (in_skipn _ _ _ e0). destruct Hx as (j & H1 & H2 & E). exists j. repeat split; auto; lia.
  - intros i Hi Hgap u v. rewrite N by exact Hi. rewrite comps_same.
    assert (Eq : forall e, In e (skipn (S i) W) <-> In e (filter (gt (weight (nth i W e0))) T)).
    { intros e. rewrite filter_In, gt_spec, (in_skipn _ _ _ e0). split.
      - intros (j & H1 & H2 & <-). split; [apply (Permutation_in _ (Permutation_sym PW)), nth_In, H2|]. fold (weight (nth j W e0)).
        apply Rlt_le_trans with (weight (nth (S i) W e0)); [apply Hgap; lia|]. apply sorted_nth; auto.
      - intros [HT Hg]. apply (Permutation_in _ PW) in HT. destruct (In_nth _ _ e0 HT) as (j & Hj & E). exists j. split; [|auto].
        destruct (Nat.le_gt_cases (S i) j) as [K|K]; [exact K|exfalso]. assert (weight (nth j W e0) <= weight (nth i W e0))%R by (apply sorted_nth; auto; lia). rewrite E in H. unfold weight in *. lra. }
    split; intros (Hu & Hv & L); (do 2 (split; [assumption|])); revert L; apply linked_incl; intros e He; apply in_map_iff in He; destruct He as (x & <- & Hx); apply in_map; now apply Eq.
Qed.

(** *** connectedness *)
Lemma cnt_one d E : 0 < d -> (cnt d (labels E) = 1 <-> forall u v, u < d -> v < d -> linked E u v).
Proof.
  intros Hd. unfold cnt. assert (H0 : In 0 (filter (fun v => Nat.eqb (labels E v) v) (seq 0 d))).
  { apply filter_In. split; [apply in_seq; lia|]. apply Nat.eqb_eq. pose proof (labels_le E 0). lia. }
  split.
  - intros H u v Hu Hv. assert (Z : forall w, w < d -> labels E w = 0).
    { intros w Hw. assert (In (labels E w) (filter (fun v => Nat.eqb (labels E v) v) (seq 0 d))) as K.
      { apply filter_In. pose proof (labels_le E w). split; [apply in_seq; lia|]. apply Nat.eqb_eq, labels_idem. }
      destruct (filter _ _) as [|a [|b l]]; cbn in H; try lia. destruct H0 as [<-|[]], K as [<-|[]]. reflexivity. }
    apply labels_linked. rewrite !Z by assumption. reflexivity.
  - intros H. assert (filter (fun v => Nat.eqb (labels E v) v) (seq 0 d) = [0]) as ->; [|reflexivity].
    assert (ND : NoDup (filter (fun v => Nat.eqb (labels E v) v) (seq 0 d))) by apply NoDup_filter, seq_NoDup.
    assert (A : forall w, In w (filter (fun v => Nat.eqb (labels E v) v) (seq 0 d)) -> w = 0).
    { intros w Hw. apply filter_In in Hw. destruct Hw as [Hw Ew]. apply in_seq in Hw. apply Nat.eqb_eq in Ew. assert (labels E w = labels E 0) as K by (apply labels_linked, H; lia). pose proof (labels_le E 0). lia. }
    destruct (filter _ _) as [|a [|b l]]; [destruct H0| |].
    + f_equal. apply A. now left.
    + exfalso. assert (a = 0) as -> by (apply A; now left). assert (b = 0) as -> by (apply A; right; now left). inversion ND as [|? ? K _]. apply K. now left.
Qed.

(** *** the full mode *)
Lemma matrix_edges_In d A u v w : In ((u, v), w) (matrix_edges d A) <->
  u < v /\ v < d /\ ((A v u <> 0 /\ w = A v u) \/ (A v u = 0 /\ A u v <> 0 /\ w = A u v))%R.
Proof.
  unfold matrix_edges. rewrite in_flat_map. split.
  - intros (i & Hi & H). apply in_flat_map in H. destruct H as (j & Hj & H). apply in_seq in Hi, Hj. destruct (Nat.ltb_spec i j); [|destruct H].
    destruct (reqb (A j i) 0) eqn:E1; cbn [negb] in H.
    + apply reqb_spec in E1. destruct (reqb (A i j) 0) eqn:E2; cbn [negb] in H; [destruct H|]. destruct H as [H|[]]. injection H as <- <- <-. do 2 (split; [lia|]). right. split; [exact E1|]. split; [|reflexivity].
      intros K. apply reqb_spec in K. congruence.
    + destruct H as [H|[]]. injection H as <- <- <-. do 2 (split; [lia|]). left. split; [|reflexivity]. intros K. apply reqb_spec in K. congruence.
  - intros (H1 & H2 & H). exists u. split; [apply in_seq; lia|]. apply in_flat_map. exists v. split; [apply in_seq; lia|]. destruct (Nat.ltb_spec u v); [|lia].
    destruct H as [[H ->]|(H & H' & ->)].
    + destruct (reqb (A v u) 0) eqn:E1; [apply reqb_spec in E1; contradiction|]. now left.
    + assert (reqb (A v u) 0 = true) as -> by now apply reqb_spec. destruct (reqb (A u v) 0) eqn:E2; [apply reqb_spec in E2; contradiction|]. now left.
Qed.
Lemma matrix_edges_ok d A : edges_ok d (matrix_edges d A).
Proof. intros u v w H. apply matrix_edges_In in H. tauto. Qed.
Lemma linked_crst E u v : linked E u v <-> clos_refl_sym_trans nat (fun a b => In (a, b) E) u v.
Proof.
  split.
  - induction 1 as [|u v w _ IH [H|H]]; [apply rst_refl| |]; (eapply rst_trans; [exact IH|]); [now apply rst_step|now apply rst_sym, rst_step].
  - induction 1; [apply linked_edge; now left|apply l_refl|now apply linked_sym|eapply linked_trans; eauto].
Qed.
Lemma crst_mono (R1 R2 : nat -> nat -> Prop) : (forall u v, R1 u v -> u = v \/ R2 u v \/ R2 v u) -> forall u v, clos_refl_sym_trans nat R1 u v -> clos_refl_sym_trans nat R2 u v.
Proof.
  intros H u v. induction 1 as [u v K| |u v _ IH|u v w _ IH1 _ IH2]; [|apply rst_refl|now apply rst_sym|eapply rst_trans; eauto].
  destruct (H u v K) as [->|[K'|K']]; [apply rst_refl|now apply rst_step|now apply rst_sym, rst_step].
Qed.
Lemma matrix_joined d A u v : linked (map ends (matrix_edges d A)) u v <-> joined d A u v.
Proof.
  rewrite linked_crst. unfold joined. split; apply crst_mono; intros a b H.
  - apply in_map_iff in H. destruct H as ([[x y] w] & E & H). cbn in E. injection E as <- <-. apply matrix_edges_In in H. destruct H as (H1 & H2 & [[H _]|(_ & H & _)]); [right; right|right; left]; repeat split; auto; lia.
  - destruct H as (Ha & Hb & H). destruct (Nat.lt_trichotomy a b) as [K|[K|K]]; [right; left|now left|right; right]; apply in_map_iff.
    + destruct (Req_EM_T (A b a) 0) as [Z|Z].
      * exists ((a, b), A a b). split; [reflexivity|]. apply matrix_edges_In. auto 6.
      * exists ((a, b), A b a). split; [reflexivity|]. apply matrix_edges_In. auto 6.
    + exists ((b, a), A a b). split; [reflexivity|]. apply matrix_edges_In. auto 6.
Qed.
Lemma matrix_above d A t u v : (forall i j, A i j = A j i) -> (above (matrix_edges d A) t u v <-> joined_above d A t u v).
Proof.
  intros SY. unfold above, joined_above. rewrite linked_crst. split; apply crst_mono; intros a b H.
  - apply in_map_iff in H. destruct H as ([[x y] w] & E & H). cbn in E. injection E as <- <-. apply filter_In in H. destruct H as [H G]. change ((if Rlt_dec t (snd (x, y, w)) then true else false)) with (gt t ((x, y), w)) in G. apply gt_spec in G. cbn in G.
    apply matrix_edges_In in H. destruct H as (H1 & H2 & [[H ->]|(_ & H & ->)]); [right; right|right; left]; repeat split; auto; lia.
  - destruct H as (Ha & Hb & H & G). destruct (Nat.lt_trichotomy a b) as [K|[K|K]]; [right; left|now left|right; right]; apply in_map_iff.
    + exists ((a, b), A b a). split; [reflexivity|]. apply filter_In. split; [apply matrix_edges_In; rewrite (SY b a); auto 6|]. apply gt_spec. cbn. now rewrite SY.
    + exists ((b, a), A a b). split; [reflexivity|]. apply filter_In. split; [apply matrix_edges_In; auto 6|]. apply gt_spec. exact G.
Qed.

Lemma full_spec d A : let Ps := partitions_full d A in
  refining d Ps /\ (0 < d -> length Ps < d) /\ (0 < d -> (length Ps = d - 1 <-> forall u v, u < d -> v < d -> joined d A u v)) /\
  ((forall i j, A i j = A j i) -> exists ws, length ws = length Ps /\ (forall i, S i < length Ps -> (nth i ws 0 <= nth (S i) ws 0)%R) /\
     forall i, i < length Ps -> (S i < length Ps -> (nth i ws 0 < nth (S i) ws 0)%R) ->
       forall u v, same_block (nth i Ps []) u v <-> u < d /\ v < d /\ joined_above d A (nth i ws 0%R) u v).
Proof.
  cbn zeta. unfold partitions_full. destruct (Nat.leb_spec d 1) as [D|D].
  - split; [split; cbn; intros; lia|]. split; [cbn; lia|]. split.
    + intros H. split; [|cbn; lia]. intros _ u v Hu Hv. assert (u = v) as -> by lia. apply rst_refl.
    + intros _. exists []. split; [reflexivity|]. split; cbn; intros; lia.
  - set (E := matrix_edges d A). assert (HE := matrix_edges_ok d A). fold E in HE. destruct (mst_spec d E HE) as (I & F & L & TH). set (T := max_spanning_tree d E) in *.
    assert (HT : edges_ok d T) by (intros u v w H; apply (HE u v w), I, H).
    destruct (sever_spec d T HT F) as (W & PW & SW & LS & RF & SB). split; [exact RF|]. rewrite LS.
    assert (C1 : 0 < d -> 1 <= cnt d (labels (map ends T))).
    { intros Hd. unfold cnt. assert (In 0 (filter (fun v => Nat.eqb (labels (map ends T) v) v) (seq 0 d))) as K.
      { apply filter_In. split; [apply in_seq; lia|]. apply Nat.eqb_eq. pose proof (labels_le (map ends T) 0). lia. }
      destruct (filter _ _); [destruct K|cbn; lia]. }
    unfold forest in F. rewrite map_length in F. split; [intros Hd; specialize (C1 Hd); lia|]. split.
    + intros Hd. specialize (C1 Hd). assert (length T = d - 1 <-> cnt d (labels (map ends T)) = 1) as -> by lia. rewrite (cnt_one _ _ Hd). 
      split; intros H u v Hu Hv; [apply matrix_joined, L|apply L, matrix_joined]; now apply H.
    + intros SY. exists (map weight W). rewrite map_length. assert (LW : length W = length T) by (symmetry; now apply Permutation_length). split; [exact LW|].
      assert (NW : forall i, nth i (map weight W) 0%R = weight (nth i W e0)) by (intros i; change 0%R with (weight e0); apply map_nth). split.
      * intros i Hi. rewrite !NW. apply sorted_nth; auto; lia.
      * intros i Hi Hg u v. rewrite !NW in *. rewrite (SB i Hi Hg). rewrite (TH _ u v). unfold E. now rewrite matrix_above.
Qed.

(** *** the sampled mode *)
Lemma chain_linked : forall reps u v, In u reps -> In v reps -> linked (map ends (chain reps)) u v.
Proof.
  assert (forall reps r, In r reps -> linked (map ends (chain reps)) (hd 0 reps) r) as K.
  { unfold chain. induction reps as [|a reps IH]; intros r H; [destruct H|]. destruct H as [<-|H]; [apply l_refl|]. destruct reps as [|b reps]; [destruct H|]. cbn [tl combine map hd].
    eapply linked_trans; [apply (linked_edge _ a b); left; now left|]. specialize (IH r H). cbn [hd tl] in IH. revert IH. apply linked_incl. intros e He. right. exact He. }
  intros reps u v Hu Hv. eapply linked_trans; [apply linked_sym, K, Hu|apply K, Hv].
Qed.
Lemma chain_length reps : length (chain reps) = length reps - 1.
Proof. unfold chain. rewrite map_length, combine_length. destruct reps; cbn [length tl]; lia. Qed.
Lemma comps_hd d E : map (fun c => hd 0 c) (comps d E) = filter (fun v => Nat.eqb (labels E v) v) (seq 0 d).
Proof.
  unfold comps. rewrite map_map. rewrite <- (map_id (filter _ _)) at 2. apply map_ext_in. intros a Ha. apply filter_In in Ha. destruct Ha as [Ha Ea]. apply in_seq in Ha.
  replace d with (a + S (d - a - 1)) by lia. rewrite seq_app, filter_app. cbn [Nat.add seq filter]. rewrite Ea.
  rewrite filter_none; [reflexivity|]. intros w Hw. apply in_seq in Hw. apply Nat.eqb_neq. pose proof (labels_le E w). lia.
Qed.
Lemma chain_ok d reps : StronglySorted lt reps -> (forall r, In r reps -> r < d) -> edges_ok d (chain reps).
Proof.
  intros S H u v w Hi. unfold chain in Hi. apply in_map_iff in Hi. destruct Hi as (p & E & Hp). injection E as -> _. clear w.
  induction S as [|a reps S IH F]; [destruct Hp|]. cbn [tl] in Hp. destruct reps as [|b reps]; [destruct Hp|]. cbn [combine] in Hp. destruct Hp as [E|Hp].
  - injection E as <- <-. inversion F; subst. split; [assumption|apply H; right; now left].
  - apply IH; [intros; apply H; now right|exact Hp].
Qed.
Lemma seq_sorted n : forall k, StronglySorted lt (seq k n).
Proof. induction n as [|n IH]; intros k; cbn [seq]; [constructor|]. constructor; [apply IH|]. apply Forall_forall. intros x Hx. apply in_seq in Hx. lia. Qed.
Lemma filter_sorted p l : StronglySorted lt l -> StronglySorted lt (filter p l).
Proof.
  induction 1 as [|a l S IH F]; [constructor|]. cbn. destruct (p a); [|exact IH]. constructor; [exact IH|]. rewrite Forall_forall in *. intros x Hx. apply filter_In in Hx. now apply F.
Qed.
Lemma sampled_spec d E : edges_ok d E -> 0 < d -> let Ps := partitions_sampled d E in
  refining d Ps /\ length Ps = d - 1 /\
  exists ws, length ws = length Ps /\ (forall i, S i < length Ps -> (nth i ws 0 <= nth (S i) ws 0)%R) /\
     forall i, i < length Ps -> (0 <= nth i ws 0)%R -> (S i < length Ps -> (nth i ws 0 < nth (S i) ws 0)%R) ->
       forall u v, same_block (nth i Ps []) u v <-> u < d /\ v < d /\ above E (nth i ws 0%R) u v.
Proof.
  intros HE Hd. cbn zeta. unfold partitions_sampled. destruct (Nat.leb_spec d 1) as [D|D].
  - split; [split; cbn; intros; lia|]. split; [cbn; lia|]. exists []. split; [reflexivity|]. split; cbn; intros; lia.
  - destruct (mst_spec d E HE) as (I & F & L & TH). set (T := max_spanning_tree d E) in *. cbn zeta.
    assert (HT : edges_ok d T) by (intros u v w H; apply (HE u v w), I, H).
    set (T' := if Nat.ltb 1 (length (comps d (map ends T))) then T ++ chain (map (fun c => hd 0 c) (comps d (map ends T))) else T).
    set (reps := filter (fun v => Nat.eqb (labels (map ends T) v) v) (seq 0 d)).
    assert (RO : forall r, In r reps -> r < d) by (intros r Hr; apply filter_In in Hr; destruct Hr as [Hr _]; apply in_seq in Hr; lia).
    assert (HT' : edges_ok d T').
    { unfold T'. destruct (Nat.ltb _ _); [|exact HT]. rewrite comps_hd. fold reps. intros u v w H. apply in_app_or in H. destruct H as [H|H]; [now apply (HT u v w)|].
      apply (chain_ok d reps) in H; [exact H|apply filter_sorted, seq_sorted|exact RO]. }
    assert (LC : length reps = cnt d (labels (map ends T))) by reflexivity.
    assert (C1 : 1 <= cnt d (labels (map ends T))).
    { rewrite <- LC. assert (In 0 reps) as K. { apply filter_In. split; [apply in_seq; lia|]. apply Nat.eqb_eq. pose proof (labels_le (map ends T) 0). lia. }
      destruct reps; [destruct K|cbn; lia]. }
    unfold forest in F. rewrite map_length in F.
    assert (LT' : length T' = d - 1).
    { unfold T'. rewrite comps_length. destruct (Nat.ltb_spec 1 (cnt d (labels (map ends T)))); [|lia]. rewrite app_length, chain_length, map_length, comps_length. lia. }
    assert (CT' : cnt d (labels (map ends T')) = 1).
    { apply cnt_one; [lia|]. unfold T'. rewrite comps_length. destruct (Nat.ltb_spec 1 (cnt d (labels (map ends T)))) as [K|K].
      - rewrite comps_hd. fold reps. intros u v Hu Hv. rewrite map_app.
        assert (I1 : forall a b, linked (map ends T) a b -> linked (map ends T ++ map ends (chain reps)) a b) by (apply linked_incl; intros; apply in_or_app; now left).
        assert (I2 : forall a b, linked (map ends (chain reps)) a b -> linked (map ends T ++ map ends (chain reps)) a b) by (apply linked_incl; intros; apply in_or_app; now right).
        assert (RR : forall w, w < d -> In (labels (map ends T) w) reps).
        { intros w Hw. apply filter_In. pose proof (labels_le (map ends T) w). split; [apply in_seq; lia|]. apply Nat.eqb_eq, labels_idem. }
        eapply linked_trans; [apply I1, labels_self|]. eapply linked_trans; [apply I2, chain_linked; apply RR; eassumption|]. apply linked_sym, I1, labels_self.
      - apply cnt_one; [lia|]. lia. }
    assert (F' : forest d (map ends T')) by (unfold forest; rewrite map_length, CT', LT'; lia).
    destruct (sever_spec d T' HT' F') as (W & PW & SW & LS & RF & SB). split; [exact RF|]. rewrite LS. split; [exact LT'|].
    exists (map weight W). rewrite map_length. assert (LW : length W = length T') by (symmetry; now apply Permutation_length). split; [exact LW|].
    assert (NW : forall i, nth i (map weight W) 0%R = weight (nth i W e0)) by (intros i; change 0%R with (weight e0); apply map_nth). split.
    + intros i Hi. rewrite !NW. apply sorted_nth; auto; lia.
    + intros i Hi H0 Hg u v. rewrite !NW in *. rewrite (SB i Hi Hg). rewrite <- (TH _ u v).
      assert (filter (gt (weight (nth i W e0))) T' = filter (gt (weight (nth i W e0))) T) as ->; [|reflexivity].
      unfold T'. destruct (Nat.ltb _ _); [|reflexivity]. rewrite filter_app, (filter_none _ (chain _)), app_nil_r; [reflexivity|].
      intros e He. unfold chain in He. apply in_map_iff in He. destruct He as (p & <- & _). destruct (gt _ _) eqn:G; [|reflexivity]. apply gt_spec in G. cbn [snd] in G. lra.
Qed.
