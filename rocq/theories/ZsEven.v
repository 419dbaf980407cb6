(** Which region trees have no node with both a leaf and an inner child. *)
From Coq Require Import List Arith ZArith Bool Lia Permutation.
From Verif Require Import Base ScopeModel CircuitModel LeafModel SignedModel TripleModel ZsModel ZsSpec ZsTree.
Import ListNotations.
Local Open Scope nat_scope.

Lemma even_leaf sc : even_tree (TN sc []).
Proof. constructor; [intros a b []|constructor]. Qed.
Lemma even_two sc l r : even_tree (TN sc [l; r]) <-> (tkids l = [] <-> tkids r = []) /\ even_tree l /\ even_tree r.
Proof.
  split.
  - intros H. inversion H as [sc' ch HM HF]; subst. inversion HF as [|? ? A HF']; subst. inversion HF' as [|? ? B _]; subst. split; [|auto].
    split; intros E; eapply HM; eauto; cbn; auto.
  - intros (E & A & B). constructor; [|repeat constructor; assumption]. intros a b [<-|[<-|[]]] [<-|[<-|[]]]; tauto.
Qed.

Lemma linear_kids o : tkids (linear_tree o) = [] <-> length o <= 1.
Proof. destruct o as [|v [|u o]]; cbn; split; intros; try lia; try discriminate; reflexivity. Qed.
Lemma linear_even o : even_tree (linear_tree o) <-> length o <= 2.
Proof.
  induction o as [|v o IH]; [cbn; split; [lia|intros; apply even_leaf]|]. destruct o as [|u o]; [cbn; split; [lia|intros; apply even_leaf]|].
  change (linear_tree (v :: u :: o)) with (TN (v :: u :: o) [TN [v] []; linear_tree (u :: o)]). rewrite even_two, linear_kids. cbn [tkids length]. split.
  - intros (H & _). destruct H as [H _]. specialize (H eq_refl). cbn in H. lia.
  - intros H. destruct o as [|? o]; [|cbn in H; lia]. split; [cbn; split; auto|]. split; apply even_leaf.
Qed.

Lemma binary_kids sh : shuffling sh -> forall fuel p sc, length sc <= S fuel -> (tkids (random_binary fuel sh p sc) = [] <-> length sc <= 1).
Proof.
  intros SH [|fuel] p sc HL; [cbn; tauto|]. cbn [random_binary]. destruct (Nat.leb_spec (length sc) 1) as [H|H]; [cbn; tauto|].
  pose proof (split_lengths (sh p sc)) as HS. destruct (split_binary (sh p sc)) as [l r]. destruct HS as (E & L1 & L2).
  rewrite (Permutation_length (SH p sc)) in L1, L2. destruct (half_bounds (length sc) ltac:(lia)) as (B1 & B2 & B3).
  destruct l as [|a l]; [cbn in L1; lia|]. destruct r as [|b r]; [cbn in L2; lia|]. cbn [isnil orb tkids]. split; [discriminate|lia].
Qed.

Definition pow2 (n : nat) : Prop := exists k, n = 2 ^ k.
Lemma pow2_half k : 2 ^ S k / 2 = 2 ^ k.
Proof. rewrite Nat.pow_succ_r', Nat.mul_comm. apply Nat.div_mul. lia. Qed.
Lemma pow_pos k : 1 <= 2 ^ k.
Proof. pose proof (Nat.pow_nonzero 2 k). lia. Qed.
Lemma pow2_succ n : pow2 n -> pow2 (S n) -> n = 1.
Proof.
  intros (a & ->) (b & E). destruct a as [|a]; [reflexivity|]. destruct b as [|b]; [pose proof (pow_pos (S a)); cbn in *; lia|].
  rewrite !Nat.pow_succ_r' in E. lia.
Qed.

Lemma binary_even sh : shuffling sh -> forall fuel p sc, length sc <= S fuel -> sc <> [] -> (even_tree (random_binary fuel sh p sc) <-> pow2 (length sc)).
Proof.
  intros SH. induction fuel as [|fuel IH]; intros p sc HL HN.
  - cbn [random_binary]. split; [|intros; apply even_leaf]. intros _. exists 0. destruct sc; [easy|cbn in *; lia].
  - cbn [random_binary]. destruct (Nat.leb_spec (length sc) 1) as [H|H].
    + split; [|intros; apply even_leaf]. intros _. exists 0. destruct sc; [easy|cbn in *; lia].
    + pose proof (split_lengths (sh p sc)) as HS. destruct (split_binary (sh p sc)) as [l r]. destruct HS as (E & L1 & L2).
      rewrite (Permutation_length (SH p sc)) in L1, L2. destruct (half_bounds (length sc) ltac:(lia)) as (B1 & B2 & B3).
      destruct l as [|a l]; [cbn in L1; lia|]. destruct r as [|b r]; [cbn in L2; lia|]. cbn [isnil orb].
      rewrite even_two, !binary_kids, !IH by (assumption || lia || discriminate). rewrite L1, L2.
      set (n := length sc) in *. clearbody n. clear - H B1 B2 B3.
      pose proof (Nat.div_mod n 2 ltac:(lia)) as D. pose proof (Nat.mod_upper_bound n 2 ltac:(lia)) as U. set (h := n / 2) in *. clearbody h. set (m := n mod 2) in *. clearbody m.
      split.
      * intros (K & P1 & P2). assert (m = 0 \/ m = 1) as [->| ->] by lia.
        -- destruct P1 as (k & ->). exists (S k). rewrite Nat.pow_succ_r'. lia.
        -- replace (n - h) with (S h) in * by lia. pose proof (pow2_succ h P1 P2). lia.
      * intros (k & Ek). destruct k as [|k]; [cbn in Ek; lia|]. rewrite Nat.pow_succ_r' in Ek. assert (m = 0) by lia. assert (h = 2 ^ k) as Eh by lia.
        replace (n - h) with h by lia. split; [tauto|]. split; exists k; exact Eh.
Qed.

Lemma cuts_pow splits y0 x0 i j : ~ (i = 0 /\ j = 0) -> exists i' j', forall a a' b b',
  In (a, a', b, b') (filter nonempty_b (cuts splits y0 (y0 + 2 ^ i) x0 (x0 + 2 ^ j))) -> a' = a + 2 ^ i' /\ b' = b + 2 ^ j'.
Proof.
  intros Hn. pose proof (pow_pos i) as Pi. pose proof (pow_pos j) as Pj.
  assert (HH : forall k, 2 ^ k / 2 = 0 /\ 2 ^ k = 2 ^ pred k /\ 2 ^ k = 1 \/ 2 ^ k / 2 = 2 ^ pred k /\ 2 ^ k = 2 ^ pred k + 2 ^ pred k).
  { intros [|k]; [left; auto|right]. rewrite pow2_half. cbn [pred]. rewrite Nat.pow_succ_r'. lia. }
  unfold cuts. replace (y0 + 2 ^ i - y0) with (2 ^ i) by lia. replace (x0 + 2 ^ j - x0) with (2 ^ j) by lia.
  destruct (HH i) as [(Hi1 & Hi2 & Hi3)|(Hi1 & Hi2)], (HH j) as [(Hj1 & Hj2 & Hj3)|(Hj1 & Hj2)]; rewrite Hi1, Hj1; pose proof (pow_pos (pred i)); pose proof (pow_pos (pred j));
    destruct (Nat.eqb splits 2).
  all: try (exists (pred i), (pred j); intros a a' b b' HI; apply filter_In in HI; destruct HI as [HI HB]; cbn [nonempty_b] in HB; apply negb_true_iff, orb_false_iff in HB; rewrite !Nat.leb_gt in HB;
            destruct HI as [E|[E|[E|[E|[]]]]]; injection E as <- <- <- <-; lia).
  - rewrite Hi3, Hj3. exists 0, 0. intros a a' b b' [].
  - exists i, (pred j). intros a a' b b' HI. apply filter_In in HI. destruct HI as [HI _].
    destruct (Nat.leb_spec (2 ^ j) (2 ^ i)), (Nat.ltb_spec 1 (2 ^ i)), (Nat.ltb_spec 1 (2 ^ j)); cbn [andb] in HI; try lia; try (now destruct HI);
      destruct HI as [E|[E|[]]]; injection E as <- <- <- <-; lia.
  - exists (pred i), j. intros a a' b b' HI. apply filter_In in HI. destruct HI as [HI _].
    destruct (Nat.leb_spec (2 ^ j) (2 ^ i)), (Nat.ltb_spec 1 (2 ^ i)), (Nat.ltb_spec 1 (2 ^ j)); cbn [andb] in HI; try lia; try (now destruct HI);
      destruct HI as [E|[E|[]]]; injection E as <- <- <- <-; lia.
  - destruct (Nat.leb_spec (2 ^ j) (2 ^ i)), (Nat.ltb_spec 1 (2 ^ i)); cbn [andb]; try lia.
    + exists (pred i), j. intros a a' b b' HI. apply filter_In in HI. destruct HI as [[E|[E|[]]] _]; injection E as <- <- <- <-; lia.
    + destruct (Nat.ltb_spec 1 (2 ^ j)); [|lia]. exists i, (pred j). intros a a' b b' HI. apply filter_In in HI. destruct HI as [[E|[E|[]]] _]; injection E as <- <- <- <-; lia.
Qed.

Lemma quad_kids c h w splits fuel y0 y1 x0 x1 : y0 < y1 -> x0 < x1 -> (y1 - y0) + (x1 - x0) <= fuel + 2 ->
  (tkids (quadtree fuel c h w splits y0 y1 x0 x1) = [] <-> (y1 - y0 <= 1 /\ x1 - x0 <= 1)).
Proof.
  intros Hy Hx HF. destruct fuel as [|fuel]; [cbn; split; [lia|reflexivity]|]. rewrite quadtree_step by assumption.
  destruct (Nat.leb_spec (y1 - y0) 1) as [A|A], (Nat.leb_spec (x1 - x0) 1) as [B|B]; cbn [andb tkids]; try (split; [lia|reflexivity]);
    (split; [|lia]; intros E; apply map_eq_nil in E; pose proof (cuts_many splits y0 y1 x0 x1 Hy Hx ltac:(lia)) as M; rewrite E in M; cbn in M; lia).
Qed.
Lemma quad_even c h w splits : forall fuel i j y0 x0, 2 ^ i + 2 ^ j <= fuel + 2 -> even_tree (quadtree fuel c h w splits y0 (y0 + 2 ^ i) x0 (x0 + 2 ^ j)).
Proof.
  induction fuel as [|fuel IH]; intros i j y0 x0 HF; [apply even_leaf|]. pose proof (pow_pos i) as Pi. pose proof (pow_pos j) as Pj.
  rewrite quadtree_step by lia. replace (y0 + 2 ^ i - y0) with (2 ^ i) by lia. replace (x0 + 2 ^ j - x0) with (2 ^ j) by lia.
  destruct (Nat.leb (2 ^ i) 1 && Nat.leb (2 ^ j) 1)%bool eqn:Eb; [apply even_leaf|].
  assert (~ (2 ^ i <= 1 /\ 2 ^ j <= 1)) as Hn by (rewrite <- !Nat.leb_le, <- andb_true_iff, Eb; discriminate); clear Eb.
  destruct (cuts_pow splits y0 x0 i j) as (i' & j' & HC); [intros [-> ->]; cbn in Hn; lia|].
  assert (HS : forall b, In b (filter nonempty_b (cuts splits y0 (y0 + 2 ^ i) x0 (x0 + 2 ^ j))) -> exists y x, b = (y, y + 2 ^ i', x, x + 2 ^ j') /\ 2 ^ i' + 2 ^ j' <= fuel + 2).
  { intros [[[a a'] b] b'] HI. destruct (HC _ _ _ _ HI) as (-> & ->). apply cuts_smaller in HI; [|lia|lia|lia]. exists a, b. split; [reflexivity|lia]. }
  constructor.
  - intros ta tb Ha Hb. apply in_map_iff in Ha, Hb. destruct Ha as (ba & <- & Ia), Hb as (bb & <- & Ib).
    destruct (HS _ Ia) as (ya & xa & -> & L), (HS _ Ib) as (yb & xb & -> & _). pose proof (pow_pos i'). pose proof (pow_pos j'). rewrite !quad_kids by lia. lia.
  - apply Forall_forall. intros t Ht. apply in_map_iff in Ht. destruct Ht as (b & <- & HI). destruct (HS _ HI) as (y & x & -> & L). apply IH. exact L.
Qed.

Lemma even_trees rg n img sh t : 0 < n -> good_image n img -> shuffling sh -> build_tree rg n img sh = Ok t ->
  match rg with
  | RndLt | Lt => even_tree t <-> n <= 2
  | RndBt => even_tree t <-> exists k, n = 2 ^ k
  | _ => forall c i j, img = Some (c, 2 ^ i, 2 ^ j) -> even_tree t
  end.
Proof.
  intros Hn HI SH H. unfold build_tree in H. destruct rg; try discriminate.
  - injection H as <-. rewrite binary_even; rewrite ?seq_length; auto; [reflexivity|]. intros E. apply (f_equal (@length nat)) in E. rewrite seq_length in E. cbn in E. lia.
  - injection H as <-. rewrite linear_even, (Permutation_length (SH _ _)), seq_length. reflexivity.
  - injection H as <-. rewrite linear_even, seq_length. reflexivity.
  - intros c i j ->. injection H as <-. pose proof (quad_even c (2 ^ i) (2 ^ j) 4 (2 ^ i + 2 ^ j) i j 0 0 ltac:(lia)) as Q. exact Q.
  - intros c i j ->. injection H as <-. pose proof (quad_even c (2 ^ i) (2 ^ j) 2 (2 ^ i + 2 ^ j) i j 0 0 ltac:(lia)) as Q. exact Q.
  - intros c i j ->. injection H as <-. pose proof (quad_even c (2 ^ i) (2 ^ j) 4 (2 ^ i + 2 ^ j) i j 0 0 ltac:(lia)) as Q. exact Q.
Qed.
