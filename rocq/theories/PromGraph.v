(** Prometheus: spanning trees and partitions. *)
From Coq Require Import List Arith Bool Reals Lia Lra Permutation Sorted.
From Verif Require Import Base ScopeModel CircuitModel LearnModel CltSpec CltPrim CnetModel CnetProofs PromModel PromSpec.
Import ListNotations.
Local Open Scope nat_scope.

(** *** labels *)
Lemma labels_snoc E e : labels (E ++ [e]) = merge (labels E) (fst e) (snd e).
Proof. unfold labels. rewrite fold_left_app. reflexivity. Qed.
Lemma linked_snoc E a b u v : linked (E ++ [(a, b)]) u v <->
  linked E u v \/ (linked E u a /\ linked E b v) \/ (linked E u b /\ linked E a v).
Proof.
  assert (I : forall x y, linked E x y -> linked (E ++ [(a, b)]) x y) by (apply linked_incl; intros; apply in_or_app; now left).
  assert (AB : linked (E ++ [(a, b)]) a b) by (apply linked_edge; left; apply in_or_app; right; now left).
  split.
  - induction 1 as [|u x v L IH H]; [left; apply l_refl|].
    assert (H' : linked E x v \/ (x = a /\ v = b) \/ (x = b /\ v = a)).
    { destruct H as [H|H]; apply in_app_or in H; destruct H as [H|[H|[]]].
      - left. apply linked_edge. now left. - injection H as <- <-. auto. - left. apply linked_edge. now right. - injection H as <- <-. auto. }
    assert (T := linked_trans E). destruct H' as [H'|[[-> ->]|[-> ->]]]; destruct IH as [IH|[[IH1 IH2]|[IH1 IH2]]].
    + left. eauto. + right. left. eauto. + right. right. eauto.
    + right. left. split; [exact IH|apply l_refl]. + right. left. split; [exact IH1|apply l_refl]. + left. exact IH1.
    + right. right. split; [exact IH|apply l_refl]. + left. exact IH1. + right. right. split; [exact IH1|apply l_refl].
  - intros [H|[[H1 H2]|[H1 H2]]]; [now apply I| |].
    + eapply linked_trans; [apply I, H1|]. eapply linked_trans; [exact AB|apply I, H2].
    + eapply linked_trans; [apply I, H1|]. eapply linked_trans; [apply linked_sym, AB|apply I, H2].
Qed.
Lemma labels_spec E : (forall u, linked E u (labels E u)) /\ (forall u v, labels E u = labels E v <-> linked E u v) /\ (forall u, labels E u <= u).
Proof.
  induction E as [|[a b] E IH] using rev_ind.
  - unfold labels. cbn. split; [intros; apply l_refl|]. split; [|lia]. intros u v. split; [intros ->; apply l_refl|]. induction 1 as [|u v w _ IH [[]|[]]]; auto.
  - destruct IH as (A & B & C). rewrite labels_snoc. cbn [fst snd]. unfold merge. set (l := labels E) in *.
    assert (Sy := linked_sym E). assert (Tr := linked_trans E). split; [|split].
    + intros u. rewrite linked_snoc. destruct (Nat.eqb_spec (l u) (Nat.max (l a) (l b))) as [H|H]; [|left; apply A].
      destruct (Nat.max_spec (l a) (l b)) as [[K M]|[K M]]; rewrite M in H.
      * rewrite Nat.min_l by lia. right. right. split; [now apply B|apply A].
      * rewrite Nat.min_r by lia. right. left. split; [now apply B|apply A].
    + intros u v. rewrite linked_snoc, <- !B. destruct (Nat.eqb_spec (l u) (Nat.max (l a) (l b))), (Nat.eqb_spec (l v) (Nat.max (l a) (l b))); lia.
    + intros u. specialize (C u). destruct (Nat.eqb_spec (l u) (Nat.max (l a) (l b))); lia.
Qed.
Lemma labels_linked E u v : labels E u = labels E v <-> linked E u v.
Proof. apply labels_spec. Qed.
Lemma labels_le E u : labels E u <= u.
Proof. apply labels_spec. Qed.
Lemma labels_self E u : linked E u (labels E u).
Proof. apply (proj1 (labels_spec E)). Qed.
Lemma labels_idem E u : labels E (labels E u) = labels E u.
Proof. symmetry. apply labels_linked, labels_self. Qed.
Lemma labels_ext E E' : (forall u v, linked E u v <-> linked E' u v) -> forall u, labels E u = labels E' u.
Proof.
  intros H u. apply Nat.le_antisymm.
  - assert (labels E (labels E' u) = labels E u) as <- by (apply labels_linked, H, linked_sym, labels_self). apply labels_le.
  - assert (labels E' (labels E u) = labels E' u) as <- by (apply labels_linked, H, linked_sym, labels_self). apply labels_le.
Qed.

(** *** counting components *)
Definition cnt (d : nat) (lab : nat -> nat) : nat := length (filter (fun v => Nat.eqb (lab v) v) (seq 0 d)).
Lemma cnt_ext d f g : (forall v, v < d -> f v = g v) -> cnt d f = cnt d g.
Proof. intros H. unfold cnt. f_equal. apply filter_ext_in. intros v Hv. apply in_seq in Hv. rewrite H by lia. reflexivity. Qed.
Lemma filter_remove {A} (P Q : A -> bool) x l : NoDup l -> In x l -> P x = true -> Q x = false -> (forall y, In y l -> y <> x -> P y = Q y) ->
  S (length (filter Q l)) = length (filter P l).
Proof.
  induction l as [|a l IH]; intros ND Hx Px Qx H; [destruct Hx|]. inversion ND as [|? ? N ND']; subst. cbn [filter]. destruct Hx as [->|Hx].
  - rewrite Px, Qx. cbn [length]. f_equal. f_equal. apply filter_ext_in. intros y Hy. symmetry. apply H; [now right|]. intros ->. contradiction.
  - assert (a <> x) by (intros ->; contradiction). rewrite (H a) by (auto; now left). assert (IH' := IH ND' Hx Px Qx ltac:(intros; apply H; auto; now right)).
    destruct (Q a); cbn [length]; lia.
Qed.
Lemma cnt_merge d E a b : a < d -> b < d -> labels E a <> labels E b -> S (cnt d (labels (E ++ [(a, b)]))) = cnt d (labels E).
Proof.
  intros Ha Hb H. rewrite labels_snoc. cbn [fst snd]. unfold cnt. set (l := labels E) in *. pose proof (labels_le E a). pose proof (labels_le E b). fold l in H0, H1.
  assert (Id : forall u, l (l u) = l u) by apply labels_idem.
  apply (filter_remove _ _ (Nat.max (l a) (l b))).
  - apply seq_NoDup.
  - apply in_seq. lia.
  - apply Nat.eqb_eq. destruct (Nat.max_spec (l a) (l b)) as [[_ ->]|[_ ->]]; apply Id.
  - unfold merge. apply Nat.eqb_neq. assert (l (Nat.max (l a) (l b)) = Nat.max (l a) (l b)) as -> by (destruct (Nat.max_spec (l a) (l b)) as [[_ ->]|[_ ->]]; apply Id).
    rewrite Nat.eqb_refl. lia.
  - intros y Hy Hne. unfold merge. destruct (Nat.eqb_spec (l y) (Nat.max (l a) (l b))) as [K|K]; [|reflexivity].
    destruct (Nat.eqb_spec (l y) y); [lia|]. symmetry. apply Nat.eqb_neq. pose proof (labels_le E y). fold l in H2. lia.
Qed.
Lemma merge_same E a b : labels E a = labels E b -> forall u, labels (E ++ [(a, b)]) u = labels E u.
Proof. intros H u. rewrite labels_snoc. unfold merge. cbn [fst snd]. rewrite H, Nat.max_id, Nat.min_id. destruct (Nat.eqb_spec (labels E u) (labels E b)); congruence. Qed.
Definition bounded (d : nat) (E : list (nat * nat)) : Prop := forall e, In e E -> fst e < d /\ snd e < d.
Lemma cnt_app d E' : forall E, bounded d E' -> cnt d (labels E) <= cnt d (labels (E ++ E')) + length E'.
Proof.
  induction E' as [|[a b] E' IH] using rev_ind; intros E HB; [rewrite app_nil_r; cbn; lia|]. rewrite app_assoc, app_length. cbn [length].
  assert (HB' : bounded d E') by (intros e He; apply HB, in_or_app; now left). specialize (IH E HB'). destruct (HB (a, b)) as [Ha Hb]; [apply in_or_app; right; now left|]. cbn in Ha, Hb.
  destruct (Nat.eq_dec (labels (E ++ E') a) (labels (E ++ E') b)) as [K|K].
  - rewrite (cnt_ext d _ _ (fun v _ => merge_same _ _ _ K v)). lia.
  - pose proof (cnt_merge d _ _ _ Ha Hb K). lia.
Qed.
Lemma filter_id {A} (p : A -> bool) l : (forall a, In a l -> p a = true) -> filter p l = l.
Proof. induction l as [|a l IH]; intros H; [reflexivity|]. cbn. rewrite (H a) by now left. f_equal. apply IH. intros. apply H. now right. Qed.
Lemma cnt_nil d : cnt d (labels []) = d.
Proof. unfold cnt, labels. cbn. rewrite filter_id; [apply seq_length|]. intros a _. apply Nat.eqb_refl. Qed.
(** [E] is a forest *)
Definition forest (d : nat) (E : list (nat * nat)) : Prop := cnt d (labels E) + length E = d.
Lemma linked_perm E E' : Permutation E E' -> forall u v, linked E u v <-> linked E' u v.
Proof. intros P u v. split; apply linked_incl; intros e He; [apply (Permutation_in _ P He)|apply (Permutation_in _ (Permutation_sym P) He)]. Qed.
Lemma forest_sub d E E1 E2 : bounded d E -> forest d E -> Permutation E (E1 ++ E2) -> forest d E1.
Proof.
  intros HB HF P. unfold forest in *. rewrite (cnt_ext d _ _ (fun v _ => labels_ext _ _ (linked_perm _ _ P) v)) in HF. rewrite (Permutation_length P), app_length in HF.
  assert (B1 : bounded d E1 /\ bounded d E2) by (split; intros e He; apply HB; apply (Permutation_in _ (Permutation_sym P)), in_or_app; auto).
  pose proof (cnt_app d E2 E1 (proj2 B1)). pose proof (cnt_app d E1 [] (proj1 B1)). cbn [app] in *. rewrite cnt_nil in *. lia.
Qed.

(** *** components *)
Lemma comps_length d E : length (comps d E) = cnt d (labels E).
Proof. unfold comps, cnt. apply map_length. Qed.
Lemma comps_same d E u v : same_block (comps d E) u v <-> u < d /\ v < d /\ linked E u v.
Proof.
  unfold same_block, comps. split.
  - intros (b & Hb & Hu & Hv). apply in_map_iff in Hb. destruct Hb as (a & <- & Ha). apply filter_In in Hu, Hv. destruct Hu as [Hu Eu], Hv as [Hv Ev]. apply in_seq in Hu, Hv.
    apply Nat.eqb_eq in Eu, Ev. do 2 (split; [lia|]). apply labels_linked. congruence.
  - intros (Hu & Hv & L). exists (filter (fun w => Nat.eqb (labels E w) (labels E u)) (seq 0 d)). apply labels_linked in L. split; [|split].
    + apply in_map_iff. exists (labels E u). split; [reflexivity|]. apply filter_In. pose proof (labels_le E u). split; [apply in_seq; lia|]. apply Nat.eqb_eq, labels_idem.
    + apply filter_In. split; [apply in_seq; lia|]. apply Nat.eqb_refl.
    + apply filter_In. split; [apply in_seq; lia|]. apply Nat.eqb_eq. congruence.
Qed.
Lemma comps_partition d E : partition_of d (comps d E).
Proof.
  split; [|split].
  - intros b Hb. unfold comps in Hb. apply in_map_iff in Hb. destruct Hb as (a & <- & Ha). apply filter_In in Ha. destruct Ha as [Ha Ea]. intros K.
    assert (In a []) as []. rewrite <- K. apply filter_In. split; [exact Ha|exact Ea].
  - unfold comps. generalize (filter (fun v => Nat.eqb (labels E v) v) (seq 0 d)) as reps, (NoDup_filter (fun v => Nat.eqb (labels E v) v) (seq_NoDup d 0)).
    induction reps as [|a reps IH]; intros ND; [constructor|]. inversion ND as [|? ? N ND']; subst. cbn [map concat].
    assert (forall l1 l2 : list nat, NoDup l1 -> NoDup l2 -> (forall x, In x l1 -> ~ In x l2) -> NoDup (l1 ++ l2)) as App.
    { clear. induction l1 as [|x l1 IH]; intros l2 H1 H2 H; [exact H2|]. inversion H1; subst. cbn. constructor; [|apply IH; auto; intros; apply H; now right].
      rewrite in_app_iff. intros [K|K]; [contradiction|]. apply (H x); [now left|exact K]. }
    apply App; [apply NoDup_filter, seq_NoDup|now apply IH|]. intros v Hv Hv'. apply filter_In in Hv. destruct Hv as [_ Ev]. apply Nat.eqb_eq in Ev.
    apply in_concat in Hv'. destruct Hv' as (b & Hb & Hvb). apply in_map_iff in Hb. destruct Hb as (a' & <- & Ha'). apply filter_In in Hvb. destruct Hvb as [_ Ev']. apply Nat.eqb_eq in Ev'. congruence.
  - intros v. rewrite in_concat. split.
    + intros (b & Hb & Hv). unfold comps in Hb. apply in_map_iff in Hb. destruct Hb as (a & <- & _). apply filter_In in Hv. destruct Hv as [Hv _]. apply in_seq in Hv. lia.
    + intros Hv. assert (same_block (comps d E) v v) as (b & Hb & H & _) by (apply comps_same; repeat split; auto; apply l_refl). eauto.
Qed.

(** *** sorting and iteration *)
Lemma kinsert_perm key e l : Permutation (e :: l) (kinsert key e l).
Proof. induction l as [|f l IH]; [reflexivity|]. cbn [kinsert]. destruct (rleb _ _); [reflexivity|]. rewrite perm_swap. now constructor. Qed.
Lemma ksort_perm key l : Permutation l (ksort key l).
Proof. unfold ksort. induction l as [|e l IH]; [reflexivity|]. cbn [fold_right]. rewrite <- kinsert_perm. now constructor. Qed.
Lemma kinsert_sorted key e l : StronglySorted (fun a b => key a <= key b)%R l -> StronglySorted (fun a b => key a <= key b)%R (kinsert key e l).
Proof.
  induction 1 as [|f l S IH F]; cbn [kinsert]; [repeat constructor|]. destruct (rleb (key e) (key f)) eqn:E.
  - apply rleb_spec in E. constructor; [now constructor|]. constructor; [exact E|]. rewrite Forall_forall in *. intros w Hw. specialize (F w Hw). lra.
  - apply rleb_false in E. constructor; [exact IH|]. rewrite Forall_forall in *. intros w Hw. apply (Permutation_in _ (Permutation_sym (kinsert_perm key e l))) in Hw. destruct Hw as [<-|Hw]; [lra|now apply F].
Qed.
Lemma ksort_sorted key l : StronglySorted (fun a b => key a <= key b)%R (ksort key l).
Proof. unfold ksort. induction l as [|e l IH]; [constructor|]. cbn [fold_right]. now apply kinsert_sorted. Qed.
Lemma iterate_perm d E : (forall e, In e E -> fst (ends e) < d) -> Permutation E (iterate d E).
Proof.
  unfold iterate. revert E. induction d as [|d IH]; intros E H.
  - destruct E as [|e E]; [constructor|]. specialize (H e ltac:(now left)). lia.
  - rewrite seq_S, flat_map_app. cbn [Nat.add flat_map]. rewrite app_nil_r.
    assert (P : Permutation E (filter (fun e => negb (Nat.eqb (fst (ends e)) d)) E ++ filter (fun e => Nat.eqb (fst (ends e)) d) E)).
    { clear. induction E as [|e E IH]; [constructor|]. cbn [filter]. destruct (Nat.eqb (fst (ends e)) d); cbn [negb app]; [apply Permutation_cons_app, IH|now constructor]. }
    rewrite P at 1. apply Permutation_app_tail. rewrite (IH (filter (fun e => negb (Nat.eqb (fst (ends e)) d)) E)) at 1.
    + match goal with |- Permutation ?a ?b => assert (a = b) as ->; [|reflexivity] end. 
      assert (forall l, (forall a, In a l -> a < d) -> flat_map (fun a => filter (fun e => Nat.eqb (fst (ends e)) a) (filter (fun e => negb (Nat.eqb (fst (ends e)) d)) E)) l = flat_map (fun a => filter (fun e => Nat.eqb (fst (ends e)) a) E) l) as G.
      { induction l as [|a l IHl]; intros Hl; [reflexivity|]. cbn [flat_map]. rewrite IHl by (intros; apply Hl; now right). f_equal. specialize (Hl a ltac:(now left)).
        clear -Hl. induction E as [|e E IH]; [reflexivity|]. cbn [filter]. destruct (Nat.eqb_spec (fst (ends e)) d) as [K|K]; cbn [negb filter].
        - destruct (Nat.eqb_spec (fst (ends e)) a); [lia|exact IH].
        - destruct (Nat.eqb (fst (ends e)) a); now rewrite IH. }
      apply G. intros a Ha. apply in_seq in Ha. lia.
    + intros e He. apply filter_In in He. destruct He as [He Ne]. apply negb_true_iff, Nat.eqb_neq in Ne. specialize (H e He). lia.
Qed.

(** *** Kruskal *)
Lemma kruskal_inv : forall Q, exists acc, fold_left kstep Q (fun v => v, []) = (labels (map ends acc), acc) /\
  (forall e, In e acc -> In e Q) /\ (forall u v, linked (map ends acc) u v <-> linked (map ends Q) u v) /\
  (forall d, bounded d (map ends Q) -> forest d (map ends acc)).
Proof.
  induction Q as [|e Q IH] using rev_ind.
  - exists []. split; [reflexivity|]. split; [auto|]. split; [reflexivity|]. intros d _. unfold forest. cbn [map length]. rewrite cnt_nil. lia.
  - destruct IH as (acc & E & I & L & F). rewrite fold_left_app. cbn [fold_left]. rewrite E. unfold kstep. destruct e as [[a b] w]. cbn [ends fst snd].
    assert (LQ : forall u v, linked (map ends (Q ++ [((a, b), w)])) u v <-> linked (map ends acc ++ [(a, b)]) u v).
    { intros u v. rewrite map_app. cbn [map ends fst]. rewrite !linked_snoc, !L. reflexivity. }
    assert (BQ : forall d, bounded d (map ends (Q ++ [((a, b), w)])) -> bounded d (map ends Q) /\ a < d /\ b < d).
    { intros d H. split; [intros x Hx; apply H; rewrite map_app; apply in_or_app; now left|]. apply (H (a, b)). rewrite map_app. apply in_or_app. right. now left. }
    destruct (Nat.eqb_spec (labels (map ends acc) a) (labels (map ends acc) b)) as [K|K].
    + exists acc. split; [reflexivity|]. split; [intros x Hx; apply in_or_app; left; now apply I|]. split.
      * intros u v. rewrite LQ. rewrite <- !labels_linked, !(merge_same _ _ _ K). reflexivity.
      * intros d H. apply F. now apply BQ.
    + exists (acc ++ [((a, b), w)]). rewrite map_app. cbn [map ends fst]. split; [|split; [|split]].
      * rewrite labels_snoc. reflexivity.
      * intros x Hx. apply in_app_or in Hx. apply in_or_app. destruct Hx as [Hx|Hx]; [left; now apply I|now right].
      * intros u v. rewrite LQ. reflexivity.
      * intros d H. destruct (BQ d H) as (H1 & Ha & Hb). specialize (F d H1). pose proof (cnt_merge d _ _ _ Ha Hb K). unfold forest in *. rewrite app_length. cbn [length]. lia.
Qed.
(** later edges do not change what earlier edges contributed *)
Lemma kruskal_app : forall Q2 lab acc, exists acc2, snd (fold_left kstep Q2 (lab, acc)) = acc ++ acc2 /\ forall e, In e acc2 -> In e Q2.
Proof.
  induction Q2 as [|e Q2 IH]; intros lab acc; [exists []; split; [now rewrite app_nil_r|auto]|]. cbn [fold_left kstep].
  destruct (Nat.eqb _ _).
  - destruct (IH lab acc) as (acc2 & E & I). exists acc2. split; [exact E|]. intros x Hx. right. now apply I.
  - destruct (IH (merge lab (fst (ends e)) (snd (ends e))) (acc ++ [e])) as (acc2 & E & I). exists (e :: acc2). rewrite E, <- app_assoc. split; [reflexivity|].
    intros x [<-|Hx]; [now left|right; now apply I].
Qed.
Definition gt (t : R) (e : edge) : bool := if Rlt_dec t (snd e) then true else false.
Lemma gt_spec t e : gt t e = true <-> (t < snd e)%R.
Proof. unfold gt. destruct (Rlt_dec t (snd e)); split; auto; discriminate. Qed.
Lemma sorted_split t l : StronglySorted (fun a b => - weight a <= - weight b)%R l -> exists hi lo, l = hi ++ lo /\ (forall e, In e hi -> gt t e = true) /\ (forall e, In e lo -> gt t e = false).
Proof.
  induction 1 as [|e l S IH F]; [exists [], []; split; [reflexivity|split; intros e []]|].
  destruct (gt t e) eqn:E.
  - destruct IH as (hi & lo & -> & H1 & H2). exists (e :: hi), lo. split; [reflexivity|]. split; [intros x [<-|Hx]; auto|exact H2].
  - exists [], (e :: l). split; [reflexivity|]. split; [intros x []|]. intros x [<-|Hx]; [exact E|]. destruct (gt t x) eqn:Ex; [|reflexivity]. apply gt_spec in Ex. rewrite Forall_forall in F. specialize (F x Hx). unfold weight in F.
    assert (gt t e = true) as K by (apply gt_spec; lra). congruence.
Qed.
Lemma filter_none {A} (p : A -> bool) l : (forall a, In a l -> p a = false) -> filter p l = [].
Proof. induction l as [|a l IH]; intros H; [reflexivity|]. cbn. rewrite (H a) by now left. apply IH. intros. apply H. now right. Qed.

Lemma edges_bounded d E : edges_ok d E -> bounded d (map ends E).
Proof. intros H e He. apply in_map_iff in He. destruct He as ([[u v] w] & <- & He). cbn. destruct (H u v w He). lia. Qed.
Lemma mst_spec d E : edges_ok d E -> let T := max_spanning_tree d E in
  (forall e, In e T -> In e E) /\ forest d (map ends T) /\ (forall u v, linked (map ends T) u v <-> linked (map ends E) u v) /\
  (forall t u v, linked (map ends (filter (gt t) T)) u v <-> above E t u v).
Proof.
  intros HE. cbn zeta. unfold max_spanning_tree. set (Q := ksort (fun e => (- weight e)%R) (iterate d E)).
  assert (PQ : Permutation E Q).
  { etransitivity; [apply (iterate_perm d)|apply ksort_perm]. intros [[u v] w] He. cbn. destruct (HE u v w He). lia. }
  assert (SQ : StronglySorted (fun a b => - weight a <= - weight b)%R Q) by apply ksort_sorted.
  destruct (kruskal_inv Q) as (acc & EK & I & L & F). rewrite EK. cbn [snd]. split; [|split; [|split]].
  - intros e He. apply (Permutation_in _ (Permutation_sym PQ)). now apply I.
  - apply F. intros e He. apply (edges_bounded d E HE). apply (Permutation_in _ (Permutation_sym (Permutation_map ends PQ)) He).
  - intros u v. rewrite L. apply linked_perm. apply Permutation_map. now symmetry.
  - intros t u v. destruct (sorted_split t Q SQ) as (hi & lo & EQ & H1 & H2). rewrite EQ, fold_left_app in EK. destruct (kruskal_inv hi) as (acch & EKh & Ih & Lh & _). rewrite EKh in EK.
    destruct (kruskal_app lo (labels (map ends acch)) acch) as (acc2 & E2 & I2). rewrite EK in E2. cbn [snd] in E2. subst acc.
    rewrite filter_app, (filter_id _ acch) by (intros e He; apply H1, Ih, He). rewrite (filter_none _ acc2) by (intros e He; apply H2, I2, He). rewrite app_nil_r, Lh.
    unfold above. change (fun e : edge => if Rlt_dec t (snd e) then true else false) with (gt t).
    assert (Permutation (filter (gt t) E) hi) as PH.
    { rewrite <- (filter_id (gt t) hi H1). rewrite <- (app_nil_r (filter (gt t) hi)), <- (filter_none (gt t) lo H2), <- filter_app, <- EQ.
      clear -PQ. induction PQ as [|x l l' P IH|x y l|l1 l2 l3 P1 IH1 P2 IH2]; cbn [filter]; [constructor|destruct (gt t x); [now constructor|exact IH]|destruct (gt t x), (gt t y); try apply perm_swap; reflexivity|etransitivity; eauto]. }
    apply linked_perm. apply Permutation_map. now symmetry.
Qed.

(** *** severing *)
