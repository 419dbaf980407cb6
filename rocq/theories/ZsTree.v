(** Lemmas about the region trees of ZsModel.v. *)
From Coq Require Import List Arith ZArith Bool Reals Lia Permutation.
From Verif Require Import Base ScopeModel CircuitModel LeafModel SignedModel TripleModel ZsModel ZsSpec.
Import ListNotations.
Local Open Scope nat_scope.

Lemma tnode_ind' (P : tnode -> Prop) : (forall sc ch, Forall P ch -> P (TN sc ch)) -> forall t, P t.
Proof.
  intros H. fix IH 1. intros [sc ch]. apply H. induction ch as [|c ch IHc]; constructor; [apply IH|exact IHc].
Qed.

Lemma rt_nonempty t : region_tree t -> tscope t <> [].
Proof.
  induction t as [sc ch IH] using tnode_ind'. intros H. inversion H as [sc' Hs|sc' ch' Hl Hp Hf]; subst; [exact Hs|]. cbn [tscope]. intros ->.
  destruct ch as [|c ch]; [cbn in Hl; lia|]. inversion IH as [|? ? I1 _]; inversion Hf as [|? ? F1 _]; subst. cbn [flat_map] in Hp.
  apply Permutation_nil in Hp. apply app_eq_nil in Hp. destruct Hp as [Hp _]. exact (I1 F1 Hp).
Qed.

(** *** binary *)
Lemma split_lengths perm : let '(l, r) := split_binary perm in
  l ++ r = perm /\ length l = length perm / 2 /\ length r = length perm - length perm / 2.
Proof.
  unfold split_binary. split; [apply firstn_skipn|]. rewrite firstn_length, skipn_length. split; [|reflexivity].
  apply Nat.min_l. apply Nat.div_le_upper_bound; lia.
Qed.
Lemma half_bounds n : 2 <= n -> 1 <= n / 2 /\ n / 2 < n /\ 1 <= n - n / 2.
Proof. intros H. assert (1 <= n / 2) by (apply Nat.div_le_lower_bound; lia). assert (n / 2 < n) by (apply Nat.div_lt; lia). lia. Qed.

Lemma binary_ok sh : shuffling sh -> forall fuel p sc, length sc <= S fuel -> sc <> [] ->
  region_tree (random_binary fuel sh p sc) /\ tscope (random_binary fuel sh p sc) = sc /\
  Forall (fun l => length l = 1) (tree_leaves (random_binary fuel sh p sc)).
Proof.
  intros SH. induction fuel as [|fuel IH]; intros p sc HL HN.
  - cbn [random_binary tscope tree_leaves]. split; [now constructor|]. split; [reflexivity|]. constructor; [|constructor]. destruct sc; [easy|]. cbn in *. lia.
  - cbn [random_binary]. destruct (Nat.leb_spec (length sc) 1) as [H1|H1].
    + cbn [tscope tree_leaves]. split; [now constructor|]. split; [reflexivity|]. constructor; [|constructor]. destruct sc; [easy|]. cbn in *. lia.
    + pose proof (split_lengths (sh p sc)) as HS. destruct (split_binary (sh p sc)) as [l r]. destruct HS as (E & L1 & L2).
      pose proof (Permutation_length (SH p sc)) as LP. rewrite LP in L1, L2. destruct (half_bounds (length sc) ltac:(lia)) as (B1 & B2 & B3).
      destruct l as [|a l]; [cbn in L1; lia|]. destruct r as [|b r]; [cbn in L2; lia|]. cbn [isnil orb].
      destruct (IH (true :: p) (a :: l) ltac:(lia) ltac:(discriminate)) as (R1 & S1 & T1).
      destruct (IH (false :: p) (b :: r) ltac:(lia) ltac:(discriminate)) as (R2 & S2 & T2).
      split; [|split; [reflexivity|]].
      * constructor; [cbn; lia| |repeat constructor; assumption]. cbn [flat_map]. rewrite S1, S2, app_nil_r, E. symmetry. apply SH.
      * cbn [tree_leaves]. rewrite app_nil_r. apply Forall_app. auto.
Qed.

(** *** linear *)
Lemma linear_ok : forall order, order <> [] ->
  region_tree (linear_tree order) /\ tscope (linear_tree order) = order /\ Forall (fun l => length l = 1) (tree_leaves (linear_tree order)).
Proof.
  induction order as [|v rest IH]; [easy|]. intros _. destruct rest as [|u rest].
  - cbn. split; [constructor; discriminate|]. split; [reflexivity|repeat constructor].
  - destruct (IH ltac:(discriminate)) as (R & S & T). change (linear_tree (v :: u :: rest)) with (TN (v :: u :: rest) [TN [v] []; linear_tree (u :: rest)]). split; [|split; [reflexivity|]].
    + constructor; [cbn; lia| |constructor; [constructor; discriminate|constructor; [exact R|constructor]]].
      change (flat_map tscope [TN [v] []; linear_tree (u :: rest)]) with ([v] ++ (tscope (linear_tree (u :: rest)) ++ [])). rewrite app_nil_r, S. reflexivity.
    + change (tree_leaves (TN (v :: u :: rest) [TN [v] []; linear_tree (u :: rest)])) with ([v] :: (tree_leaves (linear_tree (u :: rest)) ++ [])).
      rewrite app_nil_r. constructor; [reflexivity|exact T].
Qed.

(** *** quadtree *)
Lemma flat_map_perm_app {A B} (f g h : A -> list B) l : (forall a, In a l -> Permutation (f a) (g a ++ h a)) ->
  Permutation (flat_map f l) (flat_map g l ++ flat_map h l).
Proof.
  induction l as [|a l IH]; intros H; [constructor|]. cbn [flat_map].
  rewrite (H a (or_introl eq_refl)), (IH (fun b Hb => H b (or_intror Hb))). rewrite <- !app_assoc. apply Permutation_app_head.
  rewrite !app_assoc. apply Permutation_app_tail. apply Permutation_app_comm.
Qed.
Lemma seq_cut a b c : a <= b -> b <= c -> seq a (c - a) = seq a (b - a) ++ seq b (c - b).
Proof. intros H1 H2. replace (c - a) with ((b - a) + (c - b)) by lia. rewrite seq_app. do 2 f_equal. lia. Qed.

Lemma patch_cut_y c h w y0 ym y1 x0 x1 : y0 <= ym -> ym <= y1 ->
  Permutation (patch_indices c h w y0 y1 x0 x1) (patch_indices c h w y0 ym x0 x1 ++ patch_indices c h w ym y1 x0 x1).
Proof.
  intros H1 H2. unfold patch_indices. apply flat_map_perm_app. intros ch _. rewrite (seq_cut y0 ym y1) by assumption. now rewrite flat_map_app.
Qed.
Lemma patch_cut_x c h w y0 y1 x0 xm x1 : x0 <= xm -> xm <= x1 ->
  Permutation (patch_indices c h w y0 y1 x0 x1) (patch_indices c h w y0 y1 x0 xm ++ patch_indices c h w y0 y1 xm x1).
Proof.
  intros H1 H2. unfold patch_indices. apply flat_map_perm_app. intros ch _. apply flat_map_perm_app. intros y _.
  rewrite (seq_cut x0 xm x1) by assumption. now rewrite map_app.
Qed.
Lemma patch_empty c h w y0 y1 x0 x1 : y1 <= y0 \/ x1 <= x0 -> patch_indices c h w y0 y1 x0 x1 = [].
Proof.
  intros H. unfold patch_indices. induction (seq 0 c) as [|ch l IH]; [reflexivity|]. cbn [flat_map]. rewrite IH, app_nil_r.
  destruct H as [H|H].
  - replace (y1 - y0) with 0 by lia. reflexivity.
  - replace (x1 - x0) with 0 by lia. cbn [seq map]. clear. induction (seq y0 (y1 - y0)) as [|? ? IHl]; [reflexivity|exact IHl].
Qed.
Lemma patch_pixel c h w y x : patch_indices c h w y (S y) x (S x) = pixel c h w y x.
Proof.
  unfold patch_indices, pixel. replace (S y - y) with 1 by lia. replace (S x - x) with 1 by lia. cbn [seq flat_map map app].
  induction (seq 0 c) as [|a l IH]; [reflexivity|]. cbn [flat_map map app]. now rewrite IH.
Qed.

Definition patch_of c h w (b : nat * nat * nat * nat) := match b with (a, a', b, b') => patch_indices c h w a a' b b' end.
Definition nonempty_b (b : nat * nat * nat * nat) : bool := match b with (a, a', b, b') => negb (Nat.leb a' a || Nat.leb b' b) end.
Lemma filter_patches c h w bs : flat_map (patch_of c h w) (filter nonempty_b bs) = flat_map (patch_of c h w) bs.
Proof.
  induction bs as [|[[[a a'] b] b'] bs IH]; [reflexivity|]. cbn [filter flat_map]. destruct (nonempty_b (a, a', b, b')) eqn:E; cbn [flat_map]; rewrite IH; [reflexivity|].
  cbn [patch_of]. rewrite patch_empty; [reflexivity|]. cbn in E. apply negb_false_iff, orb_true_iff in E. rewrite !Nat.leb_le in E. exact E.
Qed.

(** the bounds the code splits a patch into *)
Definition cuts (splits y0 y1 x0 x1 : nat) : list (nat * nat * nat * nat) :=
  let hh := (y1 - y0) in let ww := (x1 - x0) in
  let ym := (y0 + Nat.div hh 2) in let xm := (x0 + Nat.div ww 2) in
  if Nat.eqb splits 2
  then if (Nat.leb ww hh && Nat.ltb 1 hh)%bool then [(y0, ym, x0, x1); (ym, y1, x0, x1)]
       else if Nat.ltb 1 ww then [(y0, y1, x0, xm); (y0, y1, xm, x1)] else []
  else [(y0, ym, x0, xm); (y0, ym, xm, x1); (ym, y1, x0, xm); (ym, y1, xm, x1)].

Lemma half_le n : n / 2 <= n.
Proof. apply Nat.div_le_upper_bound; lia. Qed.

Lemma cuts_perm c h w splits y0 y1 x0 x1 : y0 < y1 -> x0 < x1 -> ~ (y1 - y0 <= 1 /\ x1 - x0 <= 1) ->
  Permutation (patch_indices c h w y0 y1 x0 x1) (flat_map (patch_of c h w) (cuts splits y0 y1 x0 x1)).
Proof.
  intros Hy Hx Hn. pose proof (half_le (y1 - y0)) as A. pose proof (half_le (x1 - x0)) as B. unfold cuts. destruct (Nat.eqb splits 2).
  - destruct (Nat.leb_spec (x1 - x0) (y1 - y0)), (Nat.ltb_spec 1 (y1 - y0)); cbn [andb].
    + cbn [flat_map patch_of]. rewrite app_nil_r. apply patch_cut_y; lia.
    + destruct (Nat.ltb_spec 1 (x1 - x0)); [|lia]; cbn [flat_map patch_of]; rewrite app_nil_r; apply patch_cut_x; lia.
    + destruct (Nat.ltb_spec 1 (x1 - x0)); [|lia]; cbn [flat_map patch_of]; rewrite app_nil_r; apply patch_cut_x; lia.
    + destruct (Nat.ltb_spec 1 (x1 - x0)); [|lia]; cbn [flat_map patch_of]; rewrite app_nil_r; apply patch_cut_x; lia.
  - cbn [flat_map patch_of]. rewrite app_nil_r.
    rewrite (patch_cut_y c h w y0 (y0 + (y1 - y0) / 2) y1 x0 x1) by lia.
    rewrite (patch_cut_x c h w y0 (y0 + (y1 - y0) / 2) x0 (x0 + (x1 - x0) / 2) x1) by lia.
    rewrite (patch_cut_x c h w (y0 + (y1 - y0) / 2) y1 x0 (x0 + (x1 - x0) / 2) x1) by lia.
    now rewrite <- !app_assoc.
Qed.

Lemma cuts_smaller splits y0 y1 x0 x1 a a' b b' : y0 < y1 -> x0 < x1 -> ~ (y1 - y0 <= 1 /\ x1 - x0 <= 1) ->
  In (a, a', b, b') (filter nonempty_b (cuts splits y0 y1 x0 x1)) ->
  a < a' /\ b < b' /\ y0 <= a /\ a' <= y1 /\ x0 <= b /\ b' <= x1 /\ (a' - a) + (b' - b) < (y1 - y0) + (x1 - x0).
Proof.
  intros Hy Hx Hn H. apply filter_In in H. destruct H as [HI HB]. cbn [nonempty_b] in HB. apply negb_true_iff, orb_false_iff in HB. rewrite !Nat.leb_gt in HB.
  assert (forall n, 2 <= n -> 1 <= n / 2 /\ n / 2 < n /\ 1 <= n - n / 2) as HF by apply half_bounds.
  assert (1 / 2 = 0) as H1 by reflexivity.
  pose proof (half_le (y1 - y0)) as A. pose proof (half_le (x1 - x0)) as B. unfold cuts in HI. destruct (Nat.eqb splits 2).
  - destruct (Nat.leb_spec (x1 - x0) (y1 - y0)), (Nat.ltb_spec 1 (y1 - y0)); cbn [andb] in HI.
    + pose proof (HF (y1 - y0) ltac:(lia)). destruct HI as [E|[E|[]]]; injection E as <- <- <- <-; lia.
    + destruct (Nat.ltb_spec 1 (x1 - x0)) as [Hw|]; [|lia]; pose proof (HF (x1 - x0) ltac:(lia)); destruct HI as [E|[E|[]]]; injection E as <- <- <- <-; lia.
    + destruct (Nat.ltb_spec 1 (x1 - x0)) as [Hw|]; [|lia]; pose proof (HF (x1 - x0) ltac:(lia)); destruct HI as [E|[E|[]]]; injection E as <- <- <- <-; lia.
    + destruct (Nat.ltb_spec 1 (x1 - x0)) as [Hw|]; [|lia]; pose proof (HF (x1 - x0) ltac:(lia)); destruct HI as [E|[E|[]]]; injection E as <- <- <- <-; lia.
  - assert (y1 - y0 = 1 \/ 2 <= y1 - y0) as [E1|E1] by lia; assert (x1 - x0 = 1 \/ 2 <= x1 - x0) as [E2|E2] by lia; [lia|..];
    try (pose proof (HF _ E1)); try (pose proof (HF _ E2)); try rewrite E1, H1 in *; try rewrite E2, H1 in *;
    destruct HI as [E|[E|[E|[E|[]]]]]; injection E as <- <- <- <-; lia.
Qed.

Lemma cuts_many splits y0 y1 x0 x1 : y0 < y1 -> x0 < x1 -> ~ (y1 - y0 <= 1 /\ x1 - x0 <= 1) ->
  2 <= length (filter nonempty_b (cuts splits y0 y1 x0 x1)).
Proof.
  intros Hy Hx Hn. assert (forall n, 2 <= n -> 1 <= n / 2 /\ n / 2 < n /\ 1 <= n - n / 2) as HF by apply half_bounds.
  assert (forall a a' b b', a < a' -> b < b' -> nonempty_b (a, a', b, b') = true) as NE.
  { intros a a' b b' Ha Hb. cbn. apply negb_true_iff, orb_false_iff. rewrite !Nat.leb_gt. auto. }
  unfold cuts. destruct (Nat.eqb splits 2).
  - destruct (Nat.leb_spec (x1 - x0) (y1 - y0)), (Nat.ltb_spec 1 (y1 - y0)); cbn [andb].
    + pose proof (HF (y1 - y0) ltac:(lia)). cbn [filter]. rewrite !NE by lia. cbn. lia.
    + destruct (Nat.ltb_spec 1 (x1 - x0)) as [Hw|]; [|lia]; pose proof (HF (x1 - x0) ltac:(lia)); cbn [filter]; rewrite !NE by lia; cbn; lia.
    + destruct (Nat.ltb_spec 1 (x1 - x0)) as [Hw|]; [|lia]; pose proof (HF (x1 - x0) ltac:(lia)); cbn [filter]; rewrite !NE by lia; cbn; lia.
    + destruct (Nat.ltb_spec 1 (x1 - x0)) as [Hw|]; [|lia]; pose proof (HF (x1 - x0) ltac:(lia)); cbn [filter]; rewrite !NE by lia; cbn; lia.
  - assert (y1 - y0 = 1 \/ 2 <= y1 - y0) as [E1|E1] by lia.
    + assert (2 <= x1 - x0) as E2 by lia. pose proof (HF _ E2). rewrite E1. change (1 / 2) with 0. cbn [filter].
      rewrite (NE (y0 + 0) y1 x0 (x0 + (x1 - x0) / 2)), (NE (y0 + 0) y1 (x0 + (x1 - x0) / 2) x1) by lia.
      destruct (nonempty_b (y0, y0 + 0, x0, x0 + (x1 - x0) / 2)), (nonempty_b (y0, y0 + 0, x0 + (x1 - x0) / 2, x1)); cbn; lia.
    + pose proof (HF _ E1). assert (x1 - x0 = 1 \/ 2 <= x1 - x0) as [E2|E2] by lia.
      * rewrite E2. change (1 / 2) with 0. cbn [filter]. rewrite (NE y0 (y0 + (y1 - y0) / 2) (x0 + 0) x1), (NE (y0 + (y1 - y0) / 2) y1 (x0 + 0) x1) by lia.
        destruct (nonempty_b (y0, y0 + (y1 - y0) / 2, x0, x0 + 0)), (nonempty_b (y0 + (y1 - y0) / 2, y1, x0, x0 + 0)); cbn; lia.
      * pose proof (HF _ E2). cbn [filter]. rewrite !NE by lia. cbn. lia.
Qed.

Lemma quadtree_step fuel c h w splits y0 y1 x0 x1 : y0 < y1 -> x0 < x1 ->
  quadtree (S fuel) c h w splits y0 y1 x0 x1 =
  if (Nat.leb (y1 - y0) 1 && Nat.leb (x1 - x0) 1)%bool then TN (patch_indices c h w y0 y1 x0 x1) []
  else TN (patch_indices c h w y0 y1 x0 x1)
         (map (fun b => match b with (a, a', b, b') => quadtree fuel c h w splits a a' b b' end) (filter nonempty_b (cuts splits y0 y1 x0 x1))).
Proof.
  intros Hy Hx. cbn [quadtree]. destruct (Nat.leb_spec (y1 - y0) 1) as [A|A], (Nat.leb_spec (x1 - x0) 1) as [B|B]; cbn [andb]; try reflexivity;
  fold (cuts splits y0 y1 x0 x1); fold nonempty_b; pose proof (cuts_many splits y0 y1 x0 x1 Hy Hx ltac:(lia)) as M;
  (destruct (Nat.ltb_spec (length (map (fun b => match b with (a, a', b, b') => quadtree fuel c h w splits a a' b b' end) (filter nonempty_b (cuts splits y0 y1 x0 x1)))) 2) as [L|L];
   [rewrite map_length in L; lia|reflexivity]).
Qed.

Lemma patch_nonempty c h w y0 y1 x0 x1 : 0 < c -> y0 < y1 -> x0 < x1 -> patch_indices c h w y0 y1 x0 x1 <> [].
Proof.
  intros Hc Hy Hx E. unfold patch_indices in E. destruct c; [lia|]. cbn [seq flat_map] in E. apply app_eq_nil in E. destruct E as [E _].
  replace (y1 - y0) with (S (y1 - y0 - 1)) in E by lia. cbn [seq flat_map] in E. apply app_eq_nil in E. destruct E as [E _].
  replace (x1 - x0) with (S (x1 - x0 - 1)) in E by lia. cbn [seq map] in E. discriminate.
Qed.

Lemma tree_leaves_node sc ch : ch <> [] -> tree_leaves (TN sc ch) = flat_map tree_leaves ch.
Proof. intros H. destruct ch as [|c ch]; [easy|]. reflexivity. Qed.

Lemma quadtree_ok c h w splits : 0 < c -> forall fuel y0 y1 x0 x1, y0 < y1 -> x0 < x1 -> (y1 - y0) + (x1 - x0) <= fuel + 2 ->
  region_tree (quadtree fuel c h w splits y0 y1 x0 x1) /\
  tscope (quadtree fuel c h w splits y0 y1 x0 x1) = patch_indices c h w y0 y1 x0 x1 /\
  Forall (fun l => exists y x, y0 <= y < y1 /\ x0 <= x < x1 /\ l = pixel c h w y x) (tree_leaves (quadtree fuel c h w splits y0 y1 x0 x1)).
Proof.
  intros Hc. induction fuel as [|fuel IH]; intros y0 y1 x0 x1 Hy Hx HF.
  - cbn [quadtree tscope tree_leaves]. split; [constructor; now apply patch_nonempty|]. split; [reflexivity|]. constructor; [|constructor].
    exists y0, x0. split; [lia|]. split; [lia|]. replace y1 with (S y0) by lia. replace x1 with (S x0) by lia. apply patch_pixel.
  - rewrite quadtree_step by assumption. destruct (Nat.leb (y1 - y0) 1 && Nat.leb (x1 - x0) 1)%bool eqn:Eb.
    + apply andb_true_iff in Eb. rewrite !Nat.leb_le in Eb.
      cbn [tscope tree_leaves]. split; [constructor; now apply patch_nonempty|]. split; [reflexivity|]. constructor; [|constructor].
      exists y0, x0. split; [lia|]. split; [lia|]. replace y1 with (S y0) by lia. replace x1 with (S x0) by lia. apply patch_pixel.
    + assert (~ (y1 - y0 <= 1 /\ x1 - x0 <= 1)) as Hn by (rewrite <- !Nat.leb_le, <- andb_true_iff, Eb; discriminate); clear Eb;
      set (bs := filter nonempty_b (cuts splits y0 y1 x0 x1));
      assert (forall a a' b b', In (a, a', b, b') bs -> a < a' /\ b < b' /\ y0 <= a /\ a' <= y1 /\ x0 <= b /\ b' <= x1 /\ (a' - a) + (b' - b) < (y1 - y0) + (x1 - x0)) as HB
        by (intros; eapply cuts_smaller; eauto);
      pose proof (cuts_many splits y0 y1 x0 x1 Hy Hx Hn) as M; fold bs in M;
      set (F := fun b : nat * nat * nat * nat => match b with (a, a', b, b') => quadtree fuel c h w splits a a' b b' end);
      (split; [|split; [reflexivity|]]);
      [constructor;
        [rewrite map_length; exact M
        |rewrite (cuts_perm c h w splits y0 y1 x0 x1 Hy Hx Hn), <- filter_patches; fold bs; clear - HB IH HF;
         induction bs as [|[[[a a'] b] b'] bs IHb]; [constructor|]; cbn [map flat_map];
         destruct (HB a a' b b' (or_introl eq_refl)) as (H1 & H2 & H3 & H4 & H5 & H6 & H7);
         destruct (IH a a' b b' H1 H2 ltac:(lia)) as (_ & S & _); cbn [F]; rewrite S; cbn [patch_of]; apply Permutation_app_head; apply IHb; intros; apply HB; now right
        |rewrite Forall_forall; intros t Ht; apply in_map_iff in Ht; destruct Ht as ([[[a a'] b] b'] & <- & Ht);
         destruct (HB a a' b b' Ht) as (H1 & H2 & H3 & H4 & H5 & H6 & H7); apply (IH a a' b b' H1 H2 ltac:(lia))]
      |rewrite tree_leaves_node by (intros E; apply map_eq_nil in E; rewrite E in M; cbn in M; lia);
       rewrite Forall_forall; intros l Hl; apply in_flat_map in Hl; destruct Hl as (t & Ht & Hl);
       apply in_map_iff in Ht; destruct Ht as ([[[a a'] b] b'] & <- & Ht);
       destruct (HB a a' b b' Ht) as (H1 & H2 & H3 & H4 & H5 & H6 & H7);
       destruct (IH a a' b b' H1 H2 ltac:(lia)) as (_ & _ & T); rewrite Forall_forall in T; destruct (T l Hl) as (y & x & Y & X & E); exists y, x; split; [lia|split; [lia|exact E]]].
Qed.

(** the whole image lists every variable once, in order *)
Lemma patch_all c h w : patch_indices c h w 0 h 0 w = seq 0 (c * h * w).
Proof.
  assert (forall base m, flat_map (fun y => map (fun x => base + y * w + x) (seq 0 w)) (seq 0 m) = seq base (m * w)) as Hy.
  { intros base m. induction m as [|m IH]; [reflexivity|]. rewrite seq_S, flat_map_app, IH. cbn [flat_map]. rewrite app_nil_r.
    replace (S m * w) with (m * w + w) by lia. rewrite seq_app. f_equal. clear. cbn [Nat.add]. generalize (base + m * w). intros b.
    enough (forall k s, map (fun x => b + x) (seq s k) = seq (b + s) k) as H by (rewrite H; f_equal; lia).
    induction k as [|k IH]; intros s; [reflexivity|]. cbn [seq map]. f_equal. rewrite IH. f_equal. lia. }
  unfold patch_indices. rewrite !Nat.sub_0_r. induction c as [|c IH]; [reflexivity|]. rewrite seq_S, flat_map_app, IH. cbn [flat_map]. rewrite app_nil_r.
  cbn [Nat.add]. rewrite Hy. replace (S c * h * w) with (c * h * w + h * w) by lia. rewrite seq_app. do 2 f_equal. lia.
Qed.

Lemma build_tree_ok rg n img sh t : 0 < n -> good_image n img -> shuffling sh -> build_tree rg n img sh = Ok t ->
  region_tree t /\ Permutation (tscope t) (seq 0 n) /\
  match rg with
  | RndBt | RndLt | Lt => Forall (fun l => length l = 1) (tree_leaves t)
  | _ => exists c h w, img = Some (c, h, w) /\ Forall (fun l => exists y x, y < h /\ x < w /\ l = pixel c h w y x) (tree_leaves t)
  end.
Proof.
  intros Hn HI SH H.
  assert (forall splits, match img with None => Err | Some (c, h, w) => Ok (quadtree (h + w) c h w splits 0 h 0 w) end = Ok t ->
    region_tree t /\ Permutation (tscope t) (seq 0 n) /\
    exists c h w, img = Some (c, h, w) /\ Forall (fun l => exists y x, y < h /\ x < w /\ l = pixel c h w y x) (tree_leaves t)) as HQ.
  { intros splits E. destruct img as [[[c h] w]|]; [|discriminate]. injection E as <-. destruct HI as (Hc & Hh & Hw & E).
    destruct (quadtree_ok c h w splits Hc (h + w) 0 h 0 w Hh Hw ltac:(lia)) as (R & S & T). split; [exact R|]. rewrite S, patch_all, E. split; [reflexivity|].
    exists c, h, w. split; [reflexivity|]. eapply Forall_impl; [|exact T]. intros l (y & x & Y & X & El). exists y, x. repeat split; try lia; exact El. }
  assert (seq 0 n <> []) as NE by (destruct n; [lia|discriminate]).
  destruct rg; cbn [build_tree] in H; try (now apply HQ in H); try discriminate; injection H as <-.
  - destruct (binary_ok sh SH n [] (seq 0 n) ltac:(rewrite seq_length; lia) NE) as (R & S & T). split; [exact R|]. rewrite S. split; [reflexivity|exact T].
  - assert (sh [] (seq 0 n) <> []) as NE'. { intros E. pose proof (SH [] (seq 0 n)) as P. rewrite E in P. apply Permutation_nil in P. contradiction. }
    destruct (linear_ok _ NE') as (R & S & T). split; [exact R|]. rewrite S. split; [apply SH|exact T].
  - destruct (linear_ok _ NE) as (R & S & T). split; [exact R|]. rewrite S. split; [reflexivity|exact T].
Qed.
