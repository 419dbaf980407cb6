(** The recursion of learn_spn: partitions, clusters, mixtures, termination. *)
From Coq Require Import List Arith Bool Reals Lia Lra Sorted Permutation.
From Verif Require Import Base ScopeModel ScopeProofs CircuitModel CircuitSpec CircuitBasics CircuitEval CircuitProps MargProofs
  PruneSpec PruneProofs PruneTop PruneMain LearnModel LearnSpec LearnProofs.
Import ListNotations.
Local Open Scope R_scope.

(** *** counting *)
Lemma count_one (a : nat) ids : NoDup ids -> In a ids -> list_sum (map (fun b => if Nat.eqb a b then 1 else 0)%nat ids) = 1%nat.
Proof.
  induction ids as [|b ids IH]; intros ND H; [destruct H|]. inversion ND as [|? ? N ND']; subst.
  unfold list_sum. cbn [map fold_right]. fold (list_sum (map (fun b => if Nat.eqb a b then 1 else 0)%nat ids)).
  destruct (Nat.eqb_spec a b) as [<-|Hab].
  - assert (list_sum (map (fun b => if Nat.eqb a b then 1 else 0)%nat ids) = 0%nat) as ->; [|reflexivity].
    clear -N. induction ids as [|c ids IH]; [reflexivity|]. unfold list_sum. cbn [map fold_right].
    destruct (Nat.eqb_spec a c) as [<-|]; [exfalso; apply N; now left|]. apply IH. intros H. apply N. now right.
  - destruct H as [<-|H]; [congruence|]. now rewrite IH.
Qed.
Lemma list_sum_map_add {A} (f g : A -> nat) l : list_sum (map (fun a => (f a + g a)%nat) l) = (list_sum (map f l) + list_sum (map g l))%nat.
Proof. induction l as [|a l IH]; [reflexivity|]. unfold list_sum in *. cbn [map fold_right]. rewrite IH. lia. Qed.
Lemma count_classes {A} (f : A -> nat) ids l : NoDup ids -> (forall x, In x l -> In (f x) ids) ->
  list_sum (map (fun a => length (filter (fun x => Nat.eqb (f x) a) l)) ids) = length l.
Proof.
  intros ND. induction l as [|x l IH]; intros H.
  - clear. induction ids as [|a ids IH]; [reflexivity|]. unfold list_sum in *. cbn [map fold_right filter length]. exact IH.
  - transitivity (list_sum (map (fun a => (if Nat.eqb (f x) a then 1 else 0) + length (filter (fun x => Nat.eqb (f x) a) l))%nat ids)).
    + f_equal. apply map_ext. intros a. cbn [filter]. destruct (Nat.eqb (f x) a); cbn [length]; lia.
    + rewrite list_sum_map_add, IH by (intros; apply H; now right). rewrite count_one; [cbn [length]; lia|exact ND|apply H; now left].
Qed.
Lemma list_sum_ge {A} (f : A -> nat) l a : In a l -> (f a <= list_sum (map f l))%nat.
Proof. induction l as [|b l IH]; intros H; [destruct H|]. unfold list_sum in *. cbn [map fold_right]. destruct H as [<-|H]; [lia|]. specialize (IH H). lia. Qed.
Lemma list_sum_lt {A} (f : A -> nat) l a : (2 <= length l)%nat -> (forall b, In b l -> (1 <= f b)%nat) -> In a l -> (f a < list_sum (map f l))%nat.
Proof.
  intros HL HP H. apply in_split in H. destruct H as (l1 & l2 & ->).
  assert (E : list_sum (map f (l1 ++ a :: l2)) = (f a + list_sum (map f (l1 ++ l2)))%nat).
  { clear. induction l1 as [|b l1 IH]; [reflexivity|]. unfold list_sum in *. cbn [map fold_right app]. rewrite IH. lia. }
  rewrite E. destruct (l1 ++ l2) as [|b l'] eqn:E'; [apply (f_equal (@length _)) in E'; rewrite app_length in *; cbn in *; lia|].
  assert (1 <= f b)%nat. { apply HP. assert (In b (l1 ++ l2)) as K by (rewrite E'; now left). apply in_app_iff in K. apply in_app_iff. cbn. tauto. }
  unfold list_sum. cbn [map fold_right]. lia.
Qed.

(** *** partitions of the variables *)
Lemma sortu_NoDup l : NoDup (sortu l).
Proof. apply ssorted_NoDup, sortu_sorted. Qed.
Lemma positions_In ids a i : In i (positions ids a) <-> (i < length ids)%nat /\ nth i ids 0%nat = a.
Proof. unfold positions. rewrite filter_In, in_seq, Nat.eqb_eq. intuition lia. Qed.
Lemma blocks_In q ids b : In b (blocks q ids) <-> exists a, In a ids /\ b = map (fun i => nth i q 0%nat) (positions ids a).
Proof. unfold blocks. rewrite in_map_iff. split; intros (a & A & B); exists a; rewrite sortu_In in *; auto. Qed.
Lemma map_nth_NoDup (q : list nat) l : NoDup q -> NoDup l -> (forall i, In i l -> (i < length q)%nat) -> NoDup (map (fun i => nth i q 0%nat) l).
Proof.
  intros NQ. induction 1 as [|i l Hi ND IH]; intros H; [constructor|]. cbn [map]. constructor.
  - rewrite in_map_iff. intros (j & E & Hj). apply (proj1 (NoDup_nth q 0%nat) NQ) in E; [subst; contradiction|apply H; now right|apply H; now left].
  - apply IH. intros. apply H. now right.
Qed.
Lemma positions_NoDup ids a : NoDup (positions ids a).
Proof. apply NoDup_filter, seq_NoDup. Qed.

Lemma blocks_spec q ids : NoDup q -> length ids = length q ->
  (forall v, In v q <-> exists b, In b (blocks q ids) /\ In v b) /\
  ForallOrdPairs (fun a b => forall v : nat, In v a -> ~ In v b) (blocks q ids) /\
  (forall b, In b (blocks q ids) -> b <> [] /\ NoDup b /\ (forall v, In v b -> In v q)) /\
  list_sum (map (@length nat) (blocks q ids)) = length q.
Proof.
  intros ND HL. split; [|split; [|split]].
  - intros v. split.
    + intros H. apply (In_nth _ _ 0%nat) in H. destruct H as (i & Hi & <-).
      exists (map (fun i => nth i q 0%nat) (positions ids (nth i ids 0%nat))). split.
      * apply blocks_In. exists (nth i ids 0%nat). split; [apply nth_In; lia|reflexivity].
      * apply in_map_iff. exists i. split; [reflexivity|]. apply positions_In. split; [lia|reflexivity].
    + intros (b & Hb & Hv). apply blocks_In in Hb. destruct Hb as (a & _ & ->). apply in_map_iff in Hv. destruct Hv as (i & <- & Hi).
      apply positions_In in Hi. apply nth_In. lia.
  - unfold blocks. assert (NS : NoDup (sortu ids)) by apply sortu_NoDup. induction NS as [|a l Ha NS IH]; [constructor|]. cbn [map]. constructor; [|exact IH].
    apply Forall_forall. intros b Hb v Hv Hv'. apply in_map_iff in Hb. destruct Hb as (a' & <- & Ha'). apply in_map_iff in Hv, Hv'.
    destruct Hv as (i & <- & Hi), Hv' as (j & E & Hj). apply positions_In in Hi, Hj. apply (proj1 (NoDup_nth q 0%nat) ND) in E; [|lia|lia]. subst j.
    apply Ha. destruct Hi as [_ <-], Hj as [_ E]. rewrite E. exact Ha'.
  - intros b Hb. apply blocks_In in Hb. destruct Hb as (a & Ha & ->). split; [|split].
    + apply (In_nth _ _ 0%nat) in Ha. destruct Ha as (i & Hi & E). intros K. assert (In i (positions ids a)) as Hp by (apply positions_In; auto).
      destruct (positions ids a); [destruct Hp|discriminate].
    + apply map_nth_NoDup; [exact ND|apply positions_NoDup|]. intros i Hi. apply positions_In in Hi. lia.
    + intros v Hv. apply in_map_iff in Hv. destruct Hv as (i & <- & Hi). apply positions_In in Hi. apply nth_In. lia.
  - unfold blocks. rewrite map_map. transitivity (list_sum (map (fun a => length (positions ids a)) (sortu ids))).
    { f_equal. apply map_ext. intros a. now rewrite map_length. }
    unfold positions. rewrite (count_classes (fun i => nth i ids 0%nat)); [now rewrite seq_length|apply sortu_NoDup|].
    intros i Hi. apply sortu_In, nth_In. apply in_seq in Hi. lia.
Qed.
Lemma blocks_shorter q ids b : NoDup q -> length ids = length q -> (2 <= length (blocks q ids))%nat -> In b (blocks q ids) -> (length b < length q)%nat.
Proof.
  intros ND HL H2 Hb. destruct (blocks_spec q ids ND HL) as (_ & _ & B & S). rewrite <- S.
  apply (list_sum_lt (@length nat)); [exact H2| |exact Hb]. intros b' Hb'. destruct (B b' Hb') as [N _]. destruct b'; [congruence|cbn; lia].
Qed.

(** *** clusters of rows *)
Lemma rows_of_length data labels a : length (rows_of data labels a) = length (filter (fun p => Nat.eqb (fst p) a) (combine labels data)).
Proof. unfold rows_of. apply map_length. Qed.
Lemma rows_sizes data labels : length labels = length data ->
  list_sum (map (fun a => length (rows_of data labels a)) (sortu labels)) = length data.
Proof.
  intros HL. transitivity (list_sum (map (fun a => length (filter (fun p => Nat.eqb (fst p) a) (combine labels data))) (sortu labels))).
  { f_equal. apply map_ext. intros. apply rows_of_length. }
  rewrite (count_classes (fun p : nat * row => fst p)); [rewrite combine_length, HL; lia|apply sortu_NoDup|].
  intros [a x] H. apply sortu_In. now apply in_combine_l in H.
Qed.
Lemma rows_pos data labels a : length labels = length data -> In a labels -> (1 <= length (rows_of data labels a))%nat.
Proof.
  intros HL H. rewrite rows_of_length. apply (In_nth _ _ 0%nat) in H. destruct H as (i & Hi & E).
  assert (In (a, nth i data (fun _ => None)) (combine labels data)) as K.
  { rewrite <- E. rewrite <- combine_nth by exact HL. apply nth_In. rewrite combine_length. lia. }
  assert (In (a, nth i data (fun _ => None)) (filter (fun p => Nat.eqb (fst p) a) (combine labels data))) as K2 by (apply filter_In; split; [exact K|cbn; apply Nat.eqb_refl]).
  destruct (filter _ _); [destruct K2|cbn; lia].
Qed.
Lemma rows_shorter data labels a : length labels = length data -> (2 <= length (sortu labels))%nat -> In a (sortu labels) ->
  (length (rows_of data labels a) < length data)%nat.
Proof.
  intros HL H2 Ha. rewrite <- (rows_sizes data labels HL). apply (list_sum_lt (fun a => length (rows_of data labels a))); [exact H2| |exact Ha].
  intros b Hb. apply rows_pos; [exact HL|]. rewrite sortu_In in Hb. exact Hb.
Qed.

(** *** mixtures *)
Lemma cw_length n : forall sizes ms, length sizes = length ms -> length (cluster_weights n sizes ms) = nsum (map (fun m => channels (out_shape m)) ms).
Proof.
  induction sizes as [|s sizes IH]; destruct ms as [|m ms]; intros H; cbn in H; try discriminate; [reflexivity|].
  cbn [cluster_weights map nsum]. rewrite app_length, repeat_length, IH by lia. reflexivity.
Qed.
Lemma cw_pos n : (0 < n)%nat -> forall sizes ms, length sizes = length ms -> (forall s, In s sizes -> (1 <= s)%nat) ->
  (forall m, In m ms -> (0 < channels (out_shape m))%nat) ->
  forall i, (i < length (cluster_weights n sizes ms))%nat -> 0 < nth i (cluster_weights n sizes ms) 0.
Proof.
  intros Hn. induction sizes as [|s sizes IH]; destruct ms as [|m ms]; intros H HS HM i Hi; cbn in H; try (discriminate || (cbn in Hi; lia)).
  cbn [cluster_weights]. destruct (Nat.lt_ge_cases i (channels (out_shape m))) as [L|L].
  - rewrite app_nth1 by (now rewrite repeat_length). assert (E : forall (x : R) k j, (j < k)%nat -> nth j (repeat x k) 0 = x).
    { clear. intros x k. induction k as [|k IHk]; intros [|j] Hj; cbn; try lia; [reflexivity|apply IHk; lia]. }
    rewrite E by exact L. specialize (HS s ltac:(now left)). assert (0 < INR s) by (apply lt_0_INR; lia). assert (0 < INR n) by (apply lt_0_INR; lia).
    assert (0 < INR (channels (out_shape m))) by (apply lt_0_INR; lia). repeat apply Rdiv_lt_0_compat; assumption.
  - rewrite app_nth2; rewrite repeat_length; [|exact L]. apply IH; [lia|intros; apply HS; now right|intros; apply HM; now right|].
    revert Hi. cbn [cluster_weights]. rewrite app_length, repeat_length. lia.
Qed.
Lemma nth_repeat_lt (x : R) k j : (j < k)%nat -> nth j (repeat x k) 0 = x.
Proof. revert j. induction k as [|k IHk]; intros [|j] Hj; cbn; try lia; [reflexivity|apply IHk; lia]. Qed.

(** any weighted sum over the concatenated channels, split by input *)
Lemma cw_split n (g : nat -> R) (h : module -> nat -> R) : forall sizes ms, length sizes = length ms ->
  (forall pre m post, ms = pre ++ m :: post -> forall k, (k < channels (out_shape m))%nat ->
     g (nsum (map (fun c => channels (out_shape c)) pre) + k)%nat = h m k) ->
  bsum (length (cluster_weights n sizes ms)) (fun i => nth i (cluster_weights n sizes ms) 0 * g i) =
  lsumR (map (fun p => INR (fst p) / INR n / INR (channels (out_shape (snd p))) * bsum (channels (out_shape (snd p))) (h (snd p))) (combine sizes ms)).
Proof.
  intros sizes ms. revert g sizes. induction ms as [|m ms IH]; intros g [|s sizes] HL HG; cbn in HL; try discriminate; [reflexivity|].
  cbn [cluster_weights combine]. set (k := channels (out_shape m)) in *. set (x := INR s / INR n / INR k).
  rewrite app_length, repeat_length, bsum_app. cbn [map lsumR fst snd]. fold k. fold x. f_equal.
  - rewrite <- bsum_scal. apply bsum_ext. intros i Hi. rewrite app_nth1 by (now rewrite repeat_length). rewrite nth_repeat_lt by exact Hi. f_equal.
    exact (HG [] m ms eq_refl i Hi).
  - rewrite <- (IH (fun i => g (k + i)%nat) sizes).
    + apply bsum_ext. intros i Hi. rewrite app_nth2; rewrite repeat_length; [|lia]. do 2 f_equal. lia.
    + lia.
    + intros pre m' post E j Hj. specialize (HG (m :: pre) m' post ltac:(cbn; now rewrite E) j Hj). rewrite <- HG.
      f_equal. cbn [map nsum]. fold k. lia.
Qed.
Lemma cw_total n : (0 < n)%nat -> forall sizes ms, length sizes = length ms -> list_sum sizes = n ->
  (forall m, In m ms -> (0 < channels (out_shape m))%nat) ->
  bsum (length (cluster_weights n sizes ms)) (fun i => nth i (cluster_weights n sizes ms) 0) = 1.
Proof.
  intros Hn sizes ms HL HS HM.
  transitivity (bsum (length (cluster_weights n sizes ms)) (fun i => nth i (cluster_weights n sizes ms) 0 * 1)).
  { apply bsum_ext. intros. lra. }
  rewrite (cw_split n (fun _ => 1) (fun _ _ => 1)) by (auto).
  assert (N0 : INR n <> 0) by (apply not_0_INR; lia).
  assert (forall sizes, length sizes = length ms ->
    lsumR (map (fun p => INR (fst p) / INR n / INR (channels (out_shape (snd p))) * bsum (channels (out_shape (snd p))) (fun _ => 1)) (combine sizes ms)) = INR (list_sum sizes) / INR n) as K.
  { clear HL HS sizes. induction ms as [|m ms IH]; intros [|s sizes] HL; cbn in HL; try discriminate; [cbn; unfold Rdiv; lra|].
    cbn [combine map lsumR fst snd]. rewrite IH by (try (intros; apply HM; now right); lia). unfold list_sum. cbn [fold_right]. fold (list_sum sizes).
    rewrite plus_INR, bsum_const. assert (INR (channels (out_shape m)) <> 0) by (apply not_0_INR; specialize (HM m ltac:(now left)); lia). field. split; assumption. }
  rewrite K by exact HL. rewrite HS. field. exact N0.
Qed.

Lemma good_scopes ref q m m' : good ref q m -> good ref q m' -> scope_eqb (scope_of m) (scope_of m') = true.
Proof.
  intros G G'. apply scope_eqb_spec. split; intros v.
  - rewrite (g_vars _ _ _ G), (g_vars _ _ _ G'). reflexivity.
  - rewrite (g_ev _ _ _ G), (g_ev _ _ _ G'). reflexivity.
Qed.
Lemma good_aligned ref q ms : Forall (good ref q) ms -> Forall (fun c => fts c = hd [] (map fts ms)) ms.
Proof.
  intros H. assert (K : forall m, In m ms -> fts m = [sortu q]).
  { intros m Hm. rewrite Forall_forall in H. pose proof (H m Hm) as G. apply good_fts; [apply built_wf, G|apply G|apply G]. }
  apply Forall_forall. intros m Hm. rewrite (K m Hm). destruct ms as [|m0 ms]; [destruct Hm|]. cbn. rewrite (K m0); [reflexivity|now left].
Qed.
Lemma good_ch ref q m : good ref q m -> (0 < channels (out_shape m))%nat.
Proof. intros G. apply (wf_cpos m), wf_wf1, built_wf, G. Qed.
Lemma good_cat q ref ms : ms <> [] -> Forall (good ref q) ms -> exists sc, mk_cat true ms = Ok (MCat true sc ms) /\
  built (MCat true sc ms) /\ aligned (MCat true sc ms) /\ uniform 1 (MCat true sc ms) /\ features (out_shape (MCat true sc ms)) = 1%nat /\
  evidence sc = [] /\ (forall v, In v (query sc) <-> In v q) /\ mixes_single_channels (MCat true sc ms) /\
  channels (out_shape (MCat true sc ms)) = nsum (map (fun m => channels (out_shape m)) ms).
Proof.
  intros Hm H. destruct ms as [|m0 ms]; [congruence|]. pose proof H as H'. rewrite Forall_forall in H'.
  pose proof (H' m0 ltac:(now left)) as G0.
  assert (E : mk_cat true (m0 :: ms) = Ok (MCat true (scope_of m0) (m0 :: ms))).
  { apply mk_cat_true_intro.
    - intros c Hc. rewrite (g_feat _ _ _ (H' c Hc)). symmetry. apply G0.
    - intros c c' Hc Hc'. eapply good_scopes; [apply (H' c Hc)|apply (H' c' Hc')]. }
  exists (scope_of m0). split; [exact E|]. split.
  { eapply b_cat; [|exact E]. eapply Forall_impl; [|exact H]. intros m G. apply G. }
  split; [apply aligned_cat; split; [eapply Forall_impl; [|exact H]; intros m G; apply G|intros _; now apply (good_aligned ref q)]|].
  split; [apply uniform_cat; eapply Forall_impl; [|exact H]; intros m G; apply G|].
  split; [cbn [out_shape map hd_shape hd features]; apply G0|].
  split; [apply G0|]. split; [apply G0|]. split.
  - apply mixes_cat; [eapply Forall_impl; [|exact H]; intros m G; apply G|intros _; eapply Forall_impl; [|exact H]; intros m G; apply G].
  - cbn [out_shape channels]. rewrite map_map. reflexivity.
Qed.

Lemma mixture_ok ref q n sizes ms : (0 < n)%nat -> (1 <= ref)%nat -> ms <> [] -> length sizes = length ms -> list_sum sizes = n -> (forall s, In s sizes -> (1 <= s)%nat) ->
  Forall (good ref q) ms ->
  exists m, mk_mixture n sizes ms = Ok m /\ good ref q m /\ channels (out_shape m) = 1%nat /\
    forall s, pev s m 0 0 0 = lsumR (map (fun p => INR (fst p) / INR n / INR (channels (out_shape (snd p))) *
                                 bsum (channels (out_shape (snd p))) (fun c => pev s (snd p) 0 c 0)) (combine sizes ms)).
Proof.
  intros Hn Hr Hms HL HS HP H. unfold mk_mixture. set (w := cluster_weights n sizes ms).
  pose proof H as H'. rewrite Forall_forall in H'.
  assert (HC : forall m, In m ms -> (0 < channels (out_shape m))%nat) by (intros m Hm; eapply good_ch, (H' m Hm)).
  assert (exists inp, sum_inputs ms = Ok inp /\ built inp /\ aligned inp /\ uniform 1 inp /\ features (out_shape inp) = 1%nat /\ evidence (scope_of inp) = [] /\
    (forall v, In v (query (scope_of inp)) <-> In v q) /\ mixes_single_channels inp /\ channels (out_shape inp) = nsum (map (fun m => channels (out_shape m)) ms) /\
    one_channel inp /\ (forall sc cs, inp <> MCat false sc cs) /\
    forall s pre m post, ms = pre ++ m :: post -> forall k, (k < channels (out_shape m))%nat ->
      pev s inp 0 (nsum (map (fun c => channels (out_shape c)) pre) + k) 0 = pev s m 0 k 0) as (inp & EI & B & A & U & F & Ev & V & M & C & O1 & NC & PE).
  { destruct ms as [|m0 [|m1 ms]]; [congruence| |].
    - pose proof (H' m0 ltac:(now left)) as G. exists m0. split; [reflexivity|].
      do 7 (split; [apply G|]). split; [cbn; lia|]. split; [apply G|]. split; [apply G|].
      intros s pre m post E k Hk. destruct pre as [|? pre]; [|destruct pre; discriminate]. cbn in E. injection E as <- <-. reflexivity.
    - destruct (good_cat q ref (m0 :: m1 :: ms) ltac:(discriminate) H) as (sc & E & B & A & U & F & Ev & V & M & C).
      exists (MCat true sc (m0 :: m1 :: ms)). split; [exact E|]. do 8 (split; [assumption|]). split; [apply one_other; discriminate|]. split; [discriminate|].
      intros s pre m post Em k Hk. rewrite Em. apply pev_cat2. exact Hk. }
  rewrite EI. cbn [bind].
  set (W := mkW 1 (length w) 1 1 (fun _ i _ _ => nth i w 0)).
  assert (LW : length w = channels (out_shape inp)) by (unfold w; rewrite cw_length, C by exact HL; reflexivity).
  assert (WP : forall i, (i < length w)%nat -> 0 < nth i w 0) by (apply cw_pos; assumption).
  assert (WS : bsum (length w) (fun i => nth i w 0) = 1) by (apply cw_total; assumption).
  assert (EM : mk_sum_w inp 1 1 (W4 W) = Ok (MSum inp 1 1 (fun f i o r => ln (nth i w 0)))).
  { apply (mk_sum_w_intro inp W); cbn; auto. }
  rewrite EM. eexists. split; [reflexivity|].
  set (m := MSum inp 1 1 (fun f i o r => ln (nth i w 0))) in *.
  split; [constructor|split; [reflexivity|]].
  - eapply b_sum_w; [exact B|exact EM].
  - exact A.
  - split; [exact U|reflexivity].
  - exact F.
  - exact Ev.
  - exact V.
  - cbn. lia.
  - intros c co rr lg E. injection E as <- <- <- <-. reflexivity.
  - discriminate.
  - now apply mixes_sum.
  - intros s. unfold m. rewrite pev_sum by (rewrite <- LW; destruct ms as [|m0 ms]; [congruence|]; unfold w; rewrite cw_length by exact HL; cbn [map nsum]; specialize (HC m0 ltac:(now left)); lia).
    rewrite <- LW. rewrite <- (cw_split n (fun i => pev s inp 0 i 0) (fun m c => pev s m 0 c 0)).
    + fold w. apply bsum_ext. intros i Hi. rewrite softmax_ln by assumption. f_equal. f_equal.
      unfold bidx. destruct (Nat.eqb _ _); reflexivity.
    + exact HL.
    + intros pre m' post E k Hk. now apply PE with (post := post).
Qed.
