(** kruskal_mst_complete: the greedy tree dominates every tree at every threshold. *)
From Coq Require Import List Arith Bool Reals Lia Lra Permutation Sorted.
From Verif Require Import Base CltSpec CltPrim PromModel PromGraph PromParts MstModel MstSpec MstUf.
Import ListNotations.
Local Open Scope nat_scope.

Lemma triu_In n u v : In (u, v) (triu n) <-> u < v < n.
Proof.
  unfold triu. rewrite in_flat_map. split.
  - intros (i & Hi & H). apply in_seq in Hi. apply in_map_iff in H. destruct H as (j & E & Hj). injection E as -> ->. apply in_seq in Hj. lia.
  - intros H. exists u. split; [apply in_seq; lia|]. apply in_map_iff. exists v. split; [reflexivity|]. apply in_seq. lia.
Qed.
Lemma einsert_perm key e l : Permutation (e :: l) (einsert key e l).
Proof.
  induction l as [|f l IH]; [reflexivity|]. cbn [einsert]. destruct (before key f e); [|reflexivity].
  etransitivity; [apply perm_swap|]. now constructor.
Qed.
Lemma lexsort_perm key l : Permutation l (lexsort key l).
Proof. induction l as [|e l IH]; [reflexivity|]. cbn. etransitivity; [|apply einsert_perm]. now constructor. Qed.

(** not larger *)
Definition wle (a b : wt) : Prop := wlt b a = false.
Lemma wle_trans a b c : is_nan b = false -> wle a b -> wle b c -> wle a c.
Proof.
  unfold wle. destruct a, b, c; cbn; try congruence; try discriminate.
  intros _. destruct (Rlt_dec r0 r), (Rlt_dec r1 r0), (Rlt_dec r1 r); try discriminate; auto. intros _ _. exfalso. lra.
Qed.
Lemma wlt_wle a b : wlt a b = true -> wle a b.
Proof. unfold wle. destruct a, b; cbn; try congruence; try reflexivity; try discriminate. destruct (Rlt_dec r r0), (Rlt_dec r0 r); try discriminate; auto. intros; exfalso; lra. Qed.
Definition kle (key : nat -> nat -> wt) (e f : nat * nat) : Prop := wle (key (fst e) (snd e)) (key (fst f) (snd f)).
Lemma before_kle key e f : before key e f = true -> kle key e f.
Proof.
  unfold before, kle, wle. intros H. apply orb_prop in H. destruct H as [H|H]; [now apply wlt_wle|].
  apply andb_prop in H. destruct H as [H _]. now apply negb_true_iff in H.
Qed.
Lemma not_before_kle key e f : before key e f = false -> kle key f e.
Proof.
  unfold before, kle, wle. intros H. apply orb_false_iff in H. tauto.
Qed.
Definition okkey (key : nat -> nat -> wt) (e : nat * nat) : Prop := is_nan (key (fst e) (snd e)) = false.
Lemma einsert_sorted key e l : okkey key e -> (forall f, In f l -> okkey key f) -> StronglySorted (kle key) l -> StronglySorted (kle key) (einsert key e l).
Proof.
  intros He HL S. induction S as [|f l S IH HF]; cbn [einsert]; [repeat constructor|].
  destruct (before key f e) eqn:B.
  - constructor; [apply IH; intros; apply HL; now right|]. apply Forall_forall. intros x Hx.
    apply (Permutation_in _ (Permutation_sym (einsert_perm key e l))) in Hx. destruct Hx as [<-|Hx]; [now apply before_kle|].
    rewrite Forall_forall in HF. now apply HF.
  - apply not_before_kle in B. constructor; [now constructor|]. constructor; [exact B|]. rewrite Forall_forall in *. intros x Hx.
    apply (wle_trans _ (key (fst f) (snd f))); [apply HL; now left|exact B|now apply HF].
Qed.
Lemma lexsort_sorted key l : (forall e, In e l -> okkey key e) -> StronglySorted (kle key) (lexsort key l).
Proof.
  induction l as [|e l IH]; intros H; [constructor|]. cbn. apply einsert_sorted; [apply H; now left| |apply IH; intros; apply H; now right].
  intros f Hf. apply H. right. apply (Permutation_in _ (Permutation_sym (lexsort_perm key l)) Hf).
Qed.
Lemma sorted_prefix {A} (Rl : A -> A -> Prop) (p : A -> bool) l : StronglySorted Rl l ->
  (forall a b, In a l -> In b l -> Rl a b -> p b = true -> p a = true) -> l = filter p l ++ filter (fun a => negb (p a)) l.
Proof.
  induction 1 as [|a l S IH HF]; intros H; [reflexivity|]. cbn [filter]. destruct (p a) eqn:E; cbn [negb app].
  - f_equal. apply IH. intros; eapply H; eauto; now right.
  - rewrite Forall_forall in HF. assert (N : forall b, In b l -> p b = false).
    { intros b Hb. destruct (p b) eqn:Eb; [|reflexivity]. rewrite (H a b) in E; auto; [now left|now right]. }
    rewrite (filter_none p l N). cbn [app]. f_equal. symmetry. apply filter_id. intros b Hb. now rewrite N.
Qed.
Lemma filter_partition {A} (p : A -> bool) l : Permutation l (filter p l ++ filter (fun a => negb (p a)) l).
Proof. induction l as [|a l IH]; [constructor|]. cbn [filter]. destruct (p a); cbn [negb app]; [now constructor|]. apply Permutation_cons_app. exact IH. Qed.

Lemma tree_In_triu n T e : tree n T -> In e T -> In e (triu n).
Proof. intros [(HB & _) HL] He. destruct e as [u v]. apply triu_In. specialize (HL u v He). specialize (HB u v He). lia. Qed.

(** greedy on the sorted edges of the complete graph *)
Section Greedy.
Context (n : nat) (Hn : 0 < n) (Q : list (nat * nat)) (HQ : forall e, In e Q <-> In e (triu n)).
Lemma Q_bounded : bounded n Q.
Proof. intros [u v] He. apply HQ, triu_In in He. cbn. lia. Qed.
Lemma Q_linked u v : u < n -> v < n -> linked Q u v.
Proof.
  intros Hu Hv. destruct (lt_eq_lt_dec u v) as [[H| ->]|H]; [|apply l_refl|].
  - apply linked_edge. left. apply HQ, triu_In. lia.
  - apply linked_edge. right. apply HQ, triu_In. lia.
Qed.
Lemma grow_tree : tree n (grow Q []).
Proof.
  destruct (grow_ext Q []) as (l & E & I). assert (B : bounded n (grow Q [])) by (rewrite E; intros e He; apply Q_bounded, I, He). split.
  - apply forest_spanning; auto.
    + apply grow_forest; [exact Q_bounded|apply forest_nil].
    + intros u v Hu Hv. rewrite grow_linked. now apply Q_linked.
  - intros u v He. rewrite E in He. apply I, HQ, triu_In in He. lia.
Qed.
Lemma grow_dominates (p : nat * nat -> bool) : Q = filter p Q ++ filter (fun e => negb (p e)) Q ->
  forall T, tree n T -> length (filter p T) <= length (filter p (grow Q [])).
Proof.
  intros EQ T HT. set (Q1 := filter p Q) in *. set (Q2 := filter (fun e => negb (p e)) Q) in *.
  assert (B1 : bounded n Q1) by (intros e He; apply Q_bounded; unfold Q1 in He; now apply filter_In in He).
  assert (F1 : forest n (grow Q1 [])) by (apply grow_forest; [exact B1|apply forest_nil]).
  assert (FT : forest n (filter p T)).
  { destruct HT as [HS _]. apply (forest_sub n T _ _ (spanning_bounded n T HS) (spanning_forest n T HS) (filter_partition p T)). }
  assert (C : cnt n (labels (grow Q1 [])) = cnt n (labels Q1)) by (apply cnt_ext; intros v _; apply labels_ext; intros; now rewrite grow_linked).
  assert (C2 : cnt n (labels Q1) <= cnt n (labels (filter p T))).
  { apply cnt_incl. intros e He. apply filter_In in He. apply filter_In. split; [|tauto]. apply HQ. apply (tree_In_triu n T); tauto. }
  assert (L : length (grow Q1 []) <= length (filter p (grow Q []))).
  { rewrite EQ, grow_app. destruct (grow_ext Q2 (grow Q1 [])) as (l & E & _). rewrite E, filter_app, app_length.
    rewrite (filter_id p (grow Q1 [])); [lia|]. intros e He. destruct (grow_ext Q1 []) as (l1 & E1 & I1). rewrite E1 in He. apply I1 in He. unfold Q1 in He. now apply filter_In in He. }
  unfold forest in *. lia.
Qed.
End Greedy.

Definition nonan (n : nat) (w : nat -> nat -> wt) : Prop := forall i j, i < n -> j < n -> is_nan (w i j) = false.
Lemma nan_check n w : nonan n w <-> existsb (fun i => existsb (fun j => is_nan (w i j)) (seq 0 n)) (seq 0 n) = false.
Proof.
  split.
  - intros H. destruct (existsb _ _) eqn:E; [|reflexivity]. apply existsb_exists in E. destruct E as (i & Hi & E). apply existsb_exists in E. destruct E as (j & Hj & E).
    apply in_seq in Hi, Hj. rewrite H in E; [discriminate|lia|lia].
  - intros H i j Hi Hj. destruct (is_nan (w i j)) eqn:E; [|reflexivity]. exfalso. apply not_true_iff_false in H. apply H. apply existsb_exists. exists i. split; [apply in_seq; lia|].
    apply existsb_exists. exists j. split; [apply in_seq; lia|exact E].
Qed.
Definition keyof (minimize : bool) (w : nat -> nat -> wt) : nat -> nat -> wt := if minimize then w else fun i j => wneg (w i j).

Lemma kruskal_spec n w mn : 0 < n -> nonan n w -> exists M, kruskal_mst_complete n n w mn = Ok M /\ tree n M /\
  forall p, (forall e f, In e (triu n) -> In f (triu n) -> kle (keyof mn w) e f -> p f = true -> p e = true) ->
  forall T, tree n T -> length (filter p T) <= length (filter p M).
Proof.
  intros Hn HN. unfold kruskal_mst_complete. rewrite Nat.eqb_refl. cbn [negb]. replace (Nat.eqb n 0) with false by (symmetry; apply Nat.eqb_neq; lia).
  rewrite (proj1 (nan_check n w) HN). cbn zeta. fold (keyof mn w). set (Q := lexsort (keyof mn w) (triu n)).
  assert (PQ : Permutation (triu n) Q) by apply lexsort_perm.
  assert (HQ : forall e, In e Q <-> In e (triu n)) by (intros e; split; apply Permutation_in; [now symmetry|exact PQ]).
  assert (OK : forall e, In e (triu n) -> okkey (keyof mn w) e).
  { intros [u v] He. apply triu_In in He. unfold okkey. cbn [fst snd]. specialize (HN u v). unfold keyof. destruct mn; [apply HN; lia|]. destruct (w u v); try reflexivity. discriminate HN; lia. }
  rewrite (kloop_grow n Q uf_create []); [|exact Hn|apply create_ok|apply (Q_bounded n Hn Q HQ)|apply forest_nil|].
  2:{ intros NE. cbn. destruct Q as [|[a b] Q']; [congruence|]. assert (In (a, b) (triu n)) by (apply HQ; now left). apply triu_In in H. lia. }
  cbn [bind]. pose proof (grow_tree n Hn Q HQ) as GT.
  assert (EC : map canon (grow Q []) = grow Q []).
  { rewrite <- (map_id (grow Q [])) at 2. apply map_ext_in. intros [a b] He. apply (proj2 GT) in He. unfold canon. cbn [fst snd]. destruct (Nat.leb_spec a b); [reflexivity|lia]. }
  rewrite EC. exists (grow Q []). split; [reflexivity|]. split; [exact GT|]. intros p Hp T HT. apply (grow_dominates n Hn Q HQ p); [|exact HT].
  apply (sorted_prefix (kle (keyof mn w))); [apply lexsort_sorted; exact OK|]. intros a b Ha Hb. apply Hp; now apply HQ.
Qed.

(** ** domination at every threshold bounds the sum *)
Definition leb_t (t : R) (x : R) : bool := if Rle_dec x t then true else false.
Definition count (t : R) (l : list R) : nat := length (filter (leb_t t) l).
Lemma count_le t l : count t l <= length l.
Proof. unfold count. induction l as [|a l IH]; [auto|]. cbn. destruct (leb_t t a); cbn; lia. Qed.
Lemma count_perm t l l' : Permutation l l' -> count t l = count t l'.
Proof. intros P. unfold count. apply Permutation_length. induction P; cbn; try destruct (leb_t t x); try destruct (leb_t t y); try constructor; auto. etransitivity; eauto. Qed.
Lemma list_max_ex (l : list R) : l <> [] -> exists m l', Permutation l (m :: l') /\ forall x, In x l' -> (x <= m)%R.
Proof.
  induction l as [|a l IH]; [congruence|]. intros _. destruct l as [|b l]; [exists a, []; split; [reflexivity|intros x []]|].
  destruct IH as (m & l' & P & H); [discriminate|]. destruct (Rle_dec a m) as [L|L].
  - exists m, (a :: l'). split; [rewrite P; apply perm_swap|]. intros x [<-|Hx]; auto.
  - exists a, (m :: l'). split; [now rewrite P|]. intros x [<-|Hx]; [lra|]. specialize (H x Hx). lra.
Qed.
Lemma count_all t l : (forall x, In x l -> (x <= t)%R) -> count t l = length l.
Proof. intros H. unfold count. rewrite filter_id; [reflexivity|]. intros x Hx. unfold leb_t. destruct (Rle_dec x t); [reflexivity|]. elim n. now apply H. Qed.
Lemma count_all_inv t l : count t l = length l -> forall x, In x l -> (x <= t)%R.
Proof.
  induction l as [|a l IH]; [intros _ x []|]. unfold count. cbn [filter length]. unfold leb_t at 1. destruct (Rle_dec a t) as [L|L]; cbn [length].
  - intros E. injection E as E. intros x [<-|Hx]; [exact L|now apply IH].
  - intros E. pose proof (count_le t l). unfold count in H. lia.
Qed.
Lemma count_cons t a l : count t (a :: l) = (if Rle_dec a t then 1 else 0) + count t l.
Proof. unfold count. cbn [filter]. unfold leb_t at 1. now destruct (Rle_dec a t). Qed.
Lemma lsumR_perm l l' : Permutation l l' -> lsumR l = lsumR l'.
Proof. unfold lsumR. induction 1; cbn; lra. Qed.
Lemma dominated_sum : forall A B, length A = length B -> (forall t, count t B <= count t A) -> (lsumR A <= lsumR B)%R.
Proof.
  intros A. remember (length A) as k eqn:Ek. revert A Ek. induction k as [|k IH]; intros A Ek B EB H.
  - destruct A; [|discriminate]. destruct B; [|discriminate]. cbn. lra.
  - destruct (list_max_ex A) as (a & A' & PA & HA); [destruct A; discriminate|]. destruct (list_max_ex B) as (b & B' & PB & HB); [destruct B; discriminate|].
    rewrite (lsumR_perm _ _ PA), (lsumR_perm _ _ PB). change (lsumR (a :: A')) with (a + lsumR A')%R. change (lsumR (b :: B')) with (b + lsumR B')%R.
    apply Permutation_length in PA as LA. apply Permutation_length in PB as LB. cbn [length] in LA, LB.
    assert (H' : forall t, count t (b :: B') <= count t (a :: A')) by (intros t; rewrite <- (count_perm t _ _ PA), <- (count_perm t _ _ PB); apply H).
    assert (AB : (a <= b)%R).
    { specialize (H' b). rewrite (count_all b (b :: B')) in H' by (intros x [<-|Hx]; [lra|now apply HB]). pose proof (count_le b (a :: A')). cbn [length] in *.
      apply (count_all_inv b (a :: A')); [cbn [length]; lia|now left]. }
    assert ((lsumR A' <= lsumR B')%R); [|lra]. apply IH; [lia|lia|]. intros t. specialize (H' t).
    rewrite !count_cons in H'. pose proof (count_le t B'). destruct (Rle_dec b t) as [C|C], (Rle_dec a t) as [D|D]; try lia; try (exfalso; lra).
    rewrite (count_all t A'); [lia|]. intros x Hx. specialize (HA x Hx). lra.
Qed.
