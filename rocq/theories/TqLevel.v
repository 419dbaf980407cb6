(** Levels of a region graph and the numbering of partitions (proofs). *)
From Coq Require Import List Arith Bool Reals ZArith Lia Sorted.
From Verif Require Import Base ScopeModel RegionModel RegionSpec RegionProofs CircuitModel LayerModel PicModel PicSpec PicVisit PicMat PicShare TqModel TqSpec.
Import ListNotations.

Lemma eqb_cong r t x : region_equal r t -> region_eqb r x = region_eqb t x.
Proof.
  intros E. apply eq_true_iff_eq. rewrite !region_eqb_spec. split; intros H.
  - eapply region_equal_trans; [apply region_equal_sym; exact E|exact H].
  - eapply region_equal_trans; [exact E|exact H].
Qed.
Lemma same_split r t : same r t = true <-> region_hash r = region_hash t /\ region_equal r t.
Proof. unfold same. generalize (region_hash r), (region_hash t). intros a b. rewrite andb_true_iff, Z.eqb_eq, region_eqb_spec. reflexivity. Qed.
Lemma same_cong r t x : same r t = true -> same r x = same t x.
Proof.
  intros H. apply same_split in H. destruct H as [H E]. apply eq_true_iff_eq. rewrite !same_split. rewrite <- !region_eqb_spec, (eqb_cong r t x E). revert H. generalize (region_hash r), (region_hash t), (region_hash x). intros a b c ->. reflexivity.
Qed.
Lemma find_fold_same r t l : same r t = true -> find_fold r l = find_fold t l.
Proof. intros H. induction l as [|[x v] l IH]; [reflexivity|]. cbn [find_fold]. now rewrite (same_cong r t x H), IH. Qed.
Lemma before_same r t l : same r t = true -> before r l = before t l.
Proof. intros H. induction l as [|x l IH]; [reflexivity|]. cbn [before]. now rewrite (same_cong r t x H), IH. Qed.

Lemma find_fold_in r v A l : (exists e, In e A /\ same r (fst e) = true) -> (forall e, In e A -> same r (fst e) = true -> snd e = v) -> find_fold r (A ++ l) = Ok v.
Proof.
  induction A as [|[t w] A IH]; intros (e & Hin & HS) HV; [destruct Hin|]. cbn [app find_fold]. destruct (same r t) eqn:E.
  - f_equal. apply (HV (t, w)); [now left|exact E].
  - apply IH; [|intros e' He'; apply HV; now right]. destruct Hin as [<-|Hin]; [cbn in HS; congruence|]. exists e. now split.
Qed.
Lemma find_fold_out r A l : (forall e, In e A -> same r (fst e) = false) -> find_fold r (A ++ l) = find_fold r l.
Proof.
  induction A as [|[t w] A IH]; intros H; [reflexivity|]. cbn [app find_fold]. pose proof (H (t, w) (or_introl eq_refl)) as H0. cbn [fst] in H0. rewrite H0. apply IH. intros e He. apply H. now right.
Qed.
Lemma fold_cons {A B} (f : A -> B) (p : A -> bool) l acc : fold_left (fun l a => if p a then f a :: l else l) l acc = rev (map f (filter p l)) ++ acc.
Proof.
  revert acc. induction l as [|a l IH]; intros acc; [reflexivity|]. cbn [fold_left filter]. rewrite IH. destruct (p a); [|reflexivity]. cbn [map rev]. now rewrite <- app_assoc.
Qed.
Lemma fold_cons' {A B} (f : A -> B) l acc : fold_left (fun l a => f a :: l) l acc = rev (map f l) ++ acc.
Proof. revert acc. induction l as [|a l IH]; intros acc; [reflexivity|]. cbn [fold_left map rev]. rewrite IH. now rewrite <- app_assoc. Qed.

(** ** numbered lists *)
Lemma index_from_app {A} (a b : list A) : forall n, index_from n (a ++ b) = index_from n a ++ index_from (n + length a) b.
Proof. induction a as [|x a IH]; intros n; cbn [app index_from length]; [now rewrite Nat.add_0_r|]. rewrite IH. f_equal. f_equal. f_equal. lia. Qed.
Lemma index_from_nth {A} (l : list A) : forall n i a, nth_error l i = Some a -> nth_error (index_from n l) i = Some (n + i, a).
Proof. induction l as [|x l IH]; intros n [|i] a H; cbn in *; try discriminate; [injection H as ->; now rewrite Nat.add_0_r|]. rewrite (IH (S n) i a H). f_equal. f_equal. lia. Qed.
Lemma index_from_In {A} (l : list A) : forall n i a, In (i, a) (index_from n l) <-> n <= i /\ nth_error l (i - n) = Some a.
Proof.
  induction l as [|x l IH]; intros n i a; cbn [index_from In].
  - split; [intros []|]. intros [_ H]. destruct (i - n); discriminate.
  - rewrite IH. split.
    + intros [E|[H1 H2]]; [injection E as -> ->; rewrite Nat.sub_diag; split; [lia|reflexivity]|]. split; [lia|]. replace (i - n) with (S (i - S n)) by lia. exact H2.
    + intros [H1 H2]. destruct (Nat.eq_dec i n) as [->|NE]; [left; rewrite Nat.sub_diag in H2; cbn in H2; congruence|]. right. split; [lia|]. replace (i - n) with (S (i - S n)) in H2 by lia. exact H2.
Qed.
Lemma index_from_length {A} (l : list A) : forall n, length (index_from n l) = length l.
Proof. induction l as [|x l IH]; intros n; cbn; [reflexivity|]. now rewrite IH. Qed.

(** ** partitions of a list of regions *)
Definition LP (l : list region) : list (region * list region) := flat_map (fun r => map (pair r) (r_children r)) l.
Definition slot (r : region) (l : list region) : nat := list_sum (map (fun t => length (r_children t)) (before r l)).
Lemma distinct_cons t l : distinct (t :: l) -> (forall x, In x l -> same t x = false) /\ distinct l.
Proof. intros H. inversion H as [|? ? F D]; subst. split; [|exact D]. now rewrite Forall_forall in F. Qed.
Lemma slot_cons r t l : slot r (t :: l) = if same r t then 0 else length (r_children t) + slot r l.
Proof. unfold slot. cbn [before]. destruct (same r t); reflexivity. Qed.
Lemma nth_error_map_pair {A B} (r : A) (l : list B) j p : nth_error l j = Some p -> nth_error (map (pair r) l) j = Some (r, p).
Proof. revert j. induction l as [|a l IH]; intros [|j] H; cbn in *; try discriminate; [congruence|auto]. Qed.

Lemma LP_nth l : distinct l -> forall r j p, In r l -> nth_error (r_children r) j = Some p -> nth_error (LP l) (slot r l + j) = Some (r, p).
Proof.
  induction l as [|t l IH]; intros D r j p Hin E; [destruct Hin|]. apply distinct_cons in D. destruct D as [N D]. unfold LP. cbn [flat_map]. fold (LP l). rewrite slot_cons.
  destruct Hin as [<-|Hin].
  - rewrite same_refl. cbn [Nat.add]. assert (Hj : j < length (r_children t)) by (apply nth_error_Some; congruence). rewrite nth_error_app1 by (rewrite map_length; exact Hj). now apply nth_error_map_pair.
  - rewrite same_sym, (N r Hin). rewrite nth_error_app2 by (rewrite map_length; lia). rewrite map_length. replace (_ + _ + j - _) with (slot r l + j) by lia. now apply IH.
Qed.
Lemma LP_inv l : distinct l -> forall i r p, nth_error (LP l) i = Some (r, p) -> In r l /\ exists j, i = slot r l + j /\ nth_error (r_children r) j = Some p.
Proof.
  induction l as [|t l IH]; intros D i r p E; [destruct i; discriminate|]. apply distinct_cons in D. destruct D as [N D]. unfold LP in E. cbn [flat_map] in E. fold (LP l) in E.
  destruct (Nat.lt_ge_cases i (length (r_children t))) as [H|H].
  - rewrite nth_error_app1 in E by (rewrite map_length; exact H). destruct (nth_error (r_children t) i) as [p'|] eqn:E'; [|apply nth_error_None in E'; lia].
    rewrite (nth_error_map_pair t _ _ _ E') in E. injection E as <- <-. split; [now left|]. exists i. rewrite slot_cons, same_refl. now split.
  - rewrite nth_error_app2 in E by (rewrite map_length; exact H). rewrite map_length in E. destruct (IH D _ _ _ E) as (Hin & j & Ej & Ep). split; [now right|].
    exists j. split; [|exact Ep]. rewrite slot_cons, same_sym, (N r Hin). lia.
Qed.
Lemma LP_indices l : distinct l -> forall n r, In r l ->
  map fst (filter (fun irp : nat * (region * list region) => same r (fst (snd irp))) (index_from n (LP l))) = seq (n + slot r l) (length (r_children r)).
Proof.
  assert (AllT : forall t r ps n, same r t = true -> map fst (filter (fun irp : nat * (region * list region) => same r (fst (snd irp))) (index_from n (map (pair t) ps))) = seq n (length ps)).
  { intros t r ps. induction ps as [|p ps IH]; intros n H; [reflexivity|]. cbn [map index_from filter fst snd]. rewrite H. cbn [map fst length seq]. f_equal. now apply IH. }
  assert (AllF : forall r (L : list (region * list region)) n, (forall e, In e L -> same r (fst e) = false) -> filter (fun irp : nat * (region * list region) => same r (fst (snd irp))) (index_from n L) = []).
  { intros r L. induction L as [|e L IH]; intros n H; [reflexivity|]. cbn [index_from filter fst snd]. rewrite (H e (or_introl eq_refl)). apply IH. intros x Hx. apply H. now right. }
  induction l as [|t l IH]; intros D n r Hin; [destruct Hin|]. apply distinct_cons in D. destruct D as [N D]. unfold LP. cbn [flat_map]. fold (LP l).
  rewrite index_from_app, filter_app, map_app, slot_cons. destruct Hin as [<-|Hin].
  - rewrite same_refl, AllT by apply same_refl. rewrite AllF; [now rewrite app_nil_r, Nat.add_0_r|]. intros e He. unfold LP in He. apply in_flat_map in He. destruct He as (x & Hx & He). apply in_map_iff in He. destruct He as (p & <- & _). now apply N.
  - rewrite same_sym, (N r Hin). rewrite AllF; [|intros e He; apply in_map_iff in He; destruct He as (p & <- & _); cbn [fst]; rewrite same_sym; now apply N].
    cbn [app map]. rewrite IH by assumption. f_equal. rewrite map_length. lia.
Qed.

(** ** position of a region among those satisfying [P] *)
Lemma filter_nth (P : region -> bool) l : distinct l -> forall r, In r l -> P r = true -> nth_error (filter P l) (length (filter P (before r l))) = Some r.
Proof.
  induction l as [|t l IH]; intros D r Hin HP; [destruct Hin|]. apply distinct_cons in D. destruct D as [N D]. cbn [before filter]. destruct Hin as [<-|Hin].
  - rewrite same_refl, HP. reflexivity.
  - rewrite same_sym, (N r Hin). cbn [filter]. destruct (P t); cbn [length nth_error]; now apply IH.
Qed.
Lemma filter_inv (P : region -> bool) l : distinct l -> forall i r, nth_error (filter P l) i = Some r -> In r l /\ P r = true /\ i = length (filter P (before r l)).
Proof.
  intros D i r E. assert (Hin : In r (filter P l)) by (eapply nth_error_In; exact E). apply filter_In in Hin. destruct Hin as [Hin HP]. split; [exact Hin|]. split; [exact HP|].
  pose proof (filter_nth P l D r Hin HP) as E2. revert i E E2. generalize (length (filter P (before r l))) as j. clear Hin HP. induction l as [|t l IH]; intros j i E E2; [destruct i; discriminate|].
  apply distinct_cons in D. destruct D as [N D]. cbn [filter] in E, E2. destruct (P t); [|now apply IH]. destruct i as [|i], j as [|j]; [reflexivity| | |f_equal; now apply IH].
  - cbn in E, E2. injection E as ->. exfalso. apply nth_error_In, filter_In in E2. destruct E2 as [H _]. specialize (N r H). rewrite same_refl in N. discriminate.
  - cbn in E, E2. injection E2 as ->. exfalso. apply nth_error_In, filter_In in E. destruct E as [H _]. specialize (N r H). rewrite same_refl in N. discriminate.
Qed.

(** ** levels *)
Lemma FOP_filter {A} (Q : A -> A -> Prop) (f : A -> bool) l : ForallOrdPairs Q l -> ForallOrdPairs Q (filter f l).
Proof.
  induction 1 as [|x l F D IH]; [constructor|]. cbn [filter]. destruct (f x); [|exact IH]. constructor; [|exact IH]. rewrite Forall_forall in *. intros y Hy. apply F. apply filter_In in Hy. tauto.
Qed.
Lemma list_max_attained l : l <> [] -> In (list_max l) l.
Proof.
  induction l as [|a l IH]; intros H; [contradiction|]. change (list_max (a :: l)) with (Nat.max a (list_max l)). destruct l as [|b l]; [left; cbn [list_max fold_right]; lia|].
  destruct (Nat.max_spec a (list_max (b :: l))) as [[_ ->]|[_ ->]]; [right; apply IH; discriminate|now left].
Qed.

Section Graph.
Variable root : region.
Hypothesis SO : forall r, reach root r -> sorted_scope (r_scope r).

Lemma same_iff r t : reach root r -> reach root t -> (same r t = true <-> region_equal r t).
Proof. intros Hr Ht. split; [apply same_equal|]. intros E. apply sorted_same; auto. Qed.
Lemma po_reach r : In r (post_order root) -> reach root r.
Proof. destruct (post_order_post root) as (A & -> & RA & _). apply RA. Qed.
Lemma po_distinct : distinct (post_order root).
Proof. destruct (post_order_post root) as (A & -> & _ & _ & DA & _). exact DA. Qed.
Lemma po_complete r : reach root r -> exists d, In d (post_order root) /\ same r d = true.
Proof.
  intros H. destruct (post_order_spec root) as (P1 & P2 & _). destruct (P2 r H) as (d & Hd & E). exists d. split; [exact Hd|]. apply same_iff; auto.
Qed.
Lemma level_In h r : In r (level root h) <-> In r (post_order root) /\ rdepth r = h.
Proof. unfold level. rewrite filter_In, Nat.eqb_eq. tauto. Qed.
Lemma level_distinct h : distinct (level root h).
Proof. apply FOP_filter, po_distinct. Qed.
Lemma same_rdepth r t : same r t = true -> rdepth r = rdepth t.
Proof. intros H. apply rdepth_equal, same_equal, H. Qed.
Lemma level_complete r : reach root r -> exists d, In d (level root (rdepth r)) /\ same r d = true.
Proof. intros H. destruct (po_complete r H) as (d & Hd & E). exists d. split; [|exact E]. apply level_In. split; [exact Hd|]. symmetry. now apply same_rdepth. Qed.
Lemma reach_depth r : reach root r -> r = root \/ rdepth r < rdepth root.
Proof. induction 1 as [|r c H IH Hc]; [now left|]. right. pose proof (rdepth_child c r Hc). destruct IH as [->|IH]; lia. Qed.
Lemma depth_below h : 1 <= h -> forall r, reach root r -> h <= rdepth r -> exists t, reach root t /\ rdepth t = h.
Proof.
  intros Hh. induction r as [r IH] using region_ind_size. intros Hr Hd. destruct (Nat.eq_dec (rdepth r) h) as [E|NE]; [now exists r|].
  destruct r as [s [|p ps]]; [cbn in Hd; lia|]. cbn [rdepth] in Hd, NE. set (F := fun p => list_max (map rdepth p)) in *.
  pose proof (list_max_attained (map F (p :: ps)) ltac:(discriminate)) as Hm. apply in_map_iff in Hm. destruct Hm as (p' & Ep & Hp').
  assert (Hge : h <= F p') by (rewrite Ep; lia). unfold F in Hge. destruct p' as [|c p'']; [cbn in Hge; lia|]. pose proof (list_max_attained (map rdepth (c :: p'')) ltac:(discriminate)) as Hm. apply in_map_iff in Hm. destruct Hm as (c' & Ec & Hc').
  assert (HC : is_child c' (Region s (p :: ps))) by (exists (c :: p''); split; assumption). apply (IH c' HC); [econstructor; eassumption|]. rewrite Ec. exact Hge.
Qed.
Lemma level_nonempty h : 1 <= h -> h <= rdepth root -> level root h <> [].
Proof.
  intros H1 H2. destruct (depth_below h H1 root (reach_root root) H2) as (t & Ht & E). destruct (level_complete t Ht) as (d & Hd & _). rewrite E in Hd. intros N. rewrite N in Hd. destruct Hd.
Qed.
Lemma level_top : level root (rdepth root) = [root].
Proof.
  unfold level. destruct (post_order_last root) as [l E]. pose proof po_distinct as D. rewrite E in *. rewrite filter_app. cbn [filter]. rewrite Nat.eqb_refl.
  assert (N : filter (fun r => Nat.eqb (rdepth r) (rdepth root)) l = []); [|now rewrite N].
  assert (HN : forall r, In r l -> same r root = false).
  { clear E. induction l as [|t l IH]; [intros r []|]. cbn [app] in D. apply distinct_cons in D. destruct D as [N D]. intros r [<-|Hr]; [apply N, in_or_app; right; now left|now apply IH]. }
  assert (HR : forall r, In r l -> reach root r) by (intros r Hr; apply po_reach; rewrite E; apply in_or_app; now left). clear E D.
  induction l as [|t l IH]; [reflexivity|]. cbn [filter]. destruct (reach_depth t (HR t (or_introl eq_refl))) as [->|H].
  - specialize (HN root (or_introl eq_refl)). rewrite same_refl in HN. discriminate.
  - rewrite (proj2 (Nat.eqb_neq _ _)) by lia. apply IH; intros; [apply HN|apply HR]; now right.
Qed.
Lemma po_max : list_max (map rdepth (post_order root)) = rdepth root.
Proof.
  apply Nat.le_antisymm.
  - apply list_max_le, Forall_forall. intros d Hd. apply in_map_iff in Hd. destruct Hd as (r & <- & Hr). destruct (reach_depth r (po_reach r Hr)) as [->|]; lia.
  - apply list_max_In, in_map. destruct (post_order_last root) as [l ->]. apply in_or_app. right. now left.
Qed.
Lemma part_slot_eq r d h : In d (level root h) -> same r d = true -> part_slot root r = slot d (level root h).
Proof.
  intros Hd E. unfold part_slot, slot. apply level_In in Hd. destruct Hd as [_ Hh]. rewrite (same_rdepth r d E), Hh. now rewrite (before_same r d _ E).
Qed.
Lemma mix_slot_eq r d h : In d (level root h) -> same r d = true -> mix_slot root r = length (filter several (before d (level root h))).
Proof.
  intros Hd E. unfold mix_slot. apply level_In in Hd. destruct Hd as [_ Hh]. rewrite (same_rdepth r d E), Hh. now rewrite (before_same r d _ E).
Qed.
Lemma mix_height_S h : 1 <= h -> mix_height root (S h) = mix_height root h + (if existsb several (level root h) then 1 else 0).
Proof.
  intros H. unfold mix_height. cbn [Nat.sub]. rewrite Nat.sub_0_r. destruct h as [|h]; [lia|]. cbn [Nat.sub]. rewrite Nat.sub_0_r, seq_S, filter_app, app_length. f_equal. cbn [filter Nat.add]. destruct (existsb _ _); reflexivity.
Qed.
End Graph.
