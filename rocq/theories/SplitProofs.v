(** Splits and merges are inverse. *)
From Coq Require Import List Arith ZArith Bool Lia Permutation.
From Verif Require Import Base SplitModel.
Import ListNotations.

Section Gen.
Context {A : Type}.
Implicit Types l : list A.

Lemma concat_chunks size : (0 < size)%nat -> forall fuel l, (length l <= fuel)%nat -> concat (chunks fuel size l) = l.
Proof.
  intros Hs. induction fuel as [|k IH]; intros l Hl.
  - destruct l; [reflexivity|cbn in Hl; lia].
  - cbn [chunks]. destruct l as [|a l]; [reflexivity|]. cbn [concat]. rewrite IH.
    + apply firstn_skipn.
    + rewrite skipn_length. cbn [length] in *. lia.
Qed.

Lemma skipn_skipn' n m l : skipn n (skipn m l) = skipn (n + m) l.
Proof.
  revert l. induction m as [|m IH]; intros l; [now rewrite Nat.add_0_r|].
  destruct l as [|a l]; [now rewrite !skipn_nil|]. rewrite Nat.add_succ_r. cbn [skipn]. apply IH.
Qed.

Lemma chunks_div w : (0 < w)%nat -> forall n fuel l, length l = (n * w)%nat -> (length l <= fuel)%nat ->
  chunks fuel w l = map (fun i => firstn w (skipn (i * w) l)) (seq 0 n).
Proof.
  intros Hw. induction n as [|n IH]; intros fuel l Hl Hf.
  - destruct l; [|cbn in Hl; lia]. now destruct fuel.
  - destruct fuel as [|k]; [lia|]. cbn [chunks]. destruct l as [|a l]; [cbn in Hl; lia|].
    cbn [seq map]. cbn [Nat.mul skipn]. f_equal. rewrite (IH k).
    + rewrite <- seq_shift, map_map. apply map_ext. intros i. rewrite skipn_skipn'. f_equal. f_equal. lia.
    + rewrite skipn_length. lia.
    + rewrite skipn_length. cbn [length] in *. lia.
Qed.

Lemma c18_consecutive n l ls : split_consecutive n l = Ok ls -> merge_consecutive ls = l.
Proof.
  unfold split_consecutive, merge_consecutive. destruct (Nat.eqb_spec (length l / n) 0) as [E|E]; [discriminate|].
  intros [= <-]. apply concat_chunks; lia.
Qed.

Lemma split_consecutive_div n w l : (0 < n)%nat -> (0 < w)%nat -> length l = (n * w)%nat ->
  split_consecutive n l = Ok (map (fun i => firstn w (skipn (i * w) l)) (seq 0 n)).
Proof.
  intros Hn Hw Hl. unfold split_consecutive. rewrite Hl. replace (n * w / n) with w.
  2:{ symmetry. rewrite Nat.mul_comm. apply Nat.div_mul. lia. }
  destruct (Nat.eqb_spec w 0); [lia|]. f_equal. apply chunks_div; lia.
Qed.

(** strided *)
Lemma strided_cons_gen n i s : forall l, 
  map snd (filter (fun p : nat * A => Nat.eqb (fst p mod n) i) (combine (seq s (length l)) l)) =
  match l with [] => [] | a :: r => (if Nat.eqb (s mod n) i then [a] else []) ++
    map snd (filter (fun p : nat * A => Nat.eqb (fst p mod n) i) (combine (seq (S s) (length r)) r)) end.
Proof. destruct l as [|a r]; [reflexivity|]. cbn [length seq combine filter fst]. destruct (Nat.eqb (s mod n) i); reflexivity. Qed.

(** a block of n elements starting at a multiple of n contributes exactly its i-th *)
Definition strided_from (n i s : nat) (l : list A) : list A :=
  map snd (filter (fun p : nat * A => Nat.eqb (fst p mod n) i) (combine (seq s (length l)) l)).
Lemma strided_from_app n i s l r : strided_from n i s (l ++ r) = strided_from n i s l ++ strided_from n i (s + length l) r.
Proof.
  unfold strided_from. rewrite app_length, seq_app.
  rewrite <- map_app, <- filter_app. f_equal. f_equal.
  assert (forall (x y : list nat) (u v : list A), length x = length u -> combine (x ++ y) (u ++ v) = combine x u ++ combine y v) as E.
  { induction x as [|p x IH]; intros y u v H; destruct u; cbn in *; try discriminate; [reflexivity|]. f_equal. apply IH. lia. }
  apply E. now rewrite seq_length.
Qed.
Lemma strided_from_block n i k l : (i < n)%nat -> length l = n -> forall d, strided_from n i (k * n) l = [nth i l d].
Proof.
  intros Hi Hl d.
  assert (l = firstn i l ++ nth i l d :: skipn (S i) l) as E.
  { rewrite <- (firstn_skipn i l) at 1. f_equal.
    clear k. revert i Hi. revert n Hl. induction l as [|a l IH]; intros n Hl i Hi; [cbn in Hl; lia|].
    destruct i; [reflexivity|]. cbn [skipn nth]. cbn [length] in Hl. apply (IH (n - 1)%nat); lia. }
  assert (length (firstn i l) = i) as L1 by (rewrite firstn_length; lia).
  assert (length (skipn (S i) l) = (n - S i)%nat) as L2 by (rewrite skipn_length; lia).
  rewrite E at 1.
  assert (forall s r, (forall p, (s <= p < s + length r)%nat -> (p mod n <> i)%nat) -> strided_from n i s r = []) as Z.
  { intros s r. revert s. induction r as [|a r IH]; intros s H; [reflexivity|]. unfold strided_from. rewrite strided_cons_gen.
    destruct (Nat.eqb_spec (s mod n) i) as [Q|Q]; [exfalso; apply (H s); cbn; auto; lia|]. apply IH. intros p Hp. apply H. cbn. lia. }
  rewrite strided_from_app. rewrite Z.
  2:{ rewrite L1. intros p Hp. replace p with ((p - k * n) + k * n)%nat by lia. rewrite Nat.mod_add by lia. rewrite Nat.mod_small; lia. }
  change (nth i l d :: skipn (S i) l) with ([nth i l d] ++ skipn (S i) l). rewrite strided_from_app.
  rewrite (Z (k * n + length (firstn i l) + length [nth i l d])%nat).
  2:{ rewrite L1, L2. cbn [length]. intros p Hp. replace p with ((p - k * n) + k * n)%nat by lia. rewrite Nat.mod_add by lia. rewrite Nat.mod_small; lia. }
  rewrite app_nil_r. cbn [app]. unfold strided_from. rewrite strided_cons_gen. rewrite L1.
  replace ((k * n + i) mod n) with i. 2:{ rewrite Nat.add_comm, Nat.mod_add by lia. symmetry. apply Nat.mod_small. lia. }
  rewrite Nat.eqb_refl. reflexivity.
Qed.

Lemma strided_from_spec n i d : (i < n)%nat -> forall w k l, length l = (w * n)%nat ->
  strided_from n i (k * n) l = map (fun j => nth (j * n + i) l d) (seq 0 w).
Proof.
  intros Hi. induction w as [|w IH]; intros k l Hl.
  - destruct l; [reflexivity|cbn in Hl; lia].
  - rewrite <- (firstn_skipn n l) at 1. rewrite strided_from_app.
    assert (length (firstn n l) = n) as L by (rewrite firstn_length; cbn in Hl; lia).
    rewrite (strided_from_block n i k _ Hi L d), L. replace (k * n + n)%nat with (S k * n)%nat by lia.
    rewrite (IH (S k)) by (rewrite skipn_length; cbn in Hl; lia).
    cbn [app seq map]. f_equal.
    + cbn [Nat.mul Nat.add]. rewrite <- (firstn_skipn n l) at 2. rewrite app_nth1 by lia. reflexivity.
    + rewrite <- seq_shift, map_map. apply map_ext. intros j. rewrite <- (firstn_skipn n l) at 2.
      rewrite app_nth2 by lia. rewrite L. f_equal. lia.
Qed.

Lemma strided_spec n i d w l : (i < n)%nat -> length l = (w * n)%nat ->
  strided n i l = map (fun j => nth (j * n + i) l d) (seq 0 w).
Proof. intros Hi Hl. exact (strided_from_spec n i d Hi w 0 l Hl). Qed.

Lemma rows_of_spec (I : list nat) (g : nat -> nat -> A) w : forall s,
  rows_of w (map (fun i => map (g i) (seq s w)) I) = concat (map (fun j => map (fun i => g i j) I) (seq s w)).
Proof.
  induction w as [|w IH]; intros s; [reflexivity|]. cbn [rows_of seq map concat]. f_equal.
  - clear IH. induction I as [|i I IHI]; [reflexivity|]. cbn [map seq flat_map firstn app]. f_equal. exact IHI.
  - rewrite map_map. cbn [tl]. apply IH.
Qed.

Lemma blocks_concat n d w : forall l, length l = (w * n)%nat ->
  concat (map (fun j => map (fun i => nth (j * n + i) l d) (seq 0 n)) (seq 0 w)) = l.
Proof.
  induction w as [|w IH]; intros l Hl.
  - destruct l; [reflexivity|cbn in Hl; lia].
  - cbn [seq map concat]. rewrite <- seq_shift, map_map.
    assert (length (firstn n l) = n) as L by (rewrite firstn_length; cbn in Hl; lia).
    transitivity (firstn n l ++ skipn n l); [|apply firstn_skipn]. f_equal.
    + cbn [Nat.mul Nat.add]. apply nth_ext with d d; [now rewrite map_length, seq_length|].
      intros i Hi. rewrite map_length, seq_length in Hi.
      rewrite nth_indep with (d' := nth 0 l d) by (rewrite map_length, seq_length; lia).
      rewrite (map_nth (fun i => nth i l d)). rewrite seq_nth by lia.
      cbn [Nat.add]. rewrite <- (firstn_skipn n l) at 1. rewrite app_nth1 by lia. reflexivity.
    + etransitivity; [|apply (IH (skipn n l)); rewrite skipn_length; cbn in Hl; lia].
      f_equal. apply map_ext. intros j. apply map_ext_in. intros i Hi. rewrite <- (firstn_skipn n l) at 1.
      rewrite app_nth2 by lia. rewrite L. f_equal. lia.
Qed.

Lemma c18_interleaved n w l : (0 < n)%nat -> length l = (w * n)%nat -> merge_interleaved (split_interleaved n l) = Ok l.
Proof.
  intros Hn Hl. unfold merge_interleaved, split_interleaved.
  assert (forall d, map (fun i => strided n i l) (seq 0 n) = map (fun i => map (fun j => nth (j * n + i) l d) (seq 0 w)) (seq 0 n)) as E.
  { intros d. apply map_ext_in. intros i Hi. apply in_seq in Hi. apply strided_spec; lia. }
  destruct l as [|a l0] eqn:El; rewrite <- El in *.
  - assert (w = 0)%nat as -> by (subst l; cbn in Hl; nia).
    destruct n as [|n]; [lia|].
    assert (forall i, strided (S n) i l = []) as Z by (intros; subst l; reflexivity).
    cbn [seq map]. rewrite Z. cbn [length].
    assert (forallb (fun l1 : list A => length l1 =? 0) ([] :: map (fun i : nat => strided (S n) i l) (seq 1 n)) = true) as ->.
    { apply forallb_forall. intros y [<-|Hy]; [reflexivity|]. apply in_map_iff in Hy. destruct Hy as (i & <- & _). now rewrite Z. }
    cbn [rows_of]. now subst l.
  - rewrite (E a). destruct n as [|n]; [lia|]. cbn [seq map]. rewrite map_length, seq_length.
    match goal with |- context[forallb ?f ?L] => assert (forallb f L = true) as -> end.
    { apply forallb_forall. intros y [<-|Hy]; [rewrite map_length, seq_length; apply Nat.eqb_refl|].
      apply in_map_iff in Hy. destruct Hy as (i & <- & _). rewrite map_length, seq_length. apply Nat.eqb_refl. }
    f_equal.
    change (rows_of w (map (fun i => map (fun j => nth (j * S n + i) l a) (seq 0 w)) (seq 0 (S n))) = l).
    rewrite (rows_of_spec (seq 0 (S n)) (fun i j => nth (j * S n + i) l a) w 0). now apply blocks_concat.
Qed.

(** set_at *)
Lemma set_at_nth l i a j d : nth j (set_at l i a) d = if (Nat.eqb j i && Nat.ltb i (length l))%bool then a else nth j l d.
Proof.
  unfold set_at. destruct (Nat.ltb_spec i (length l)) as [H|H].
  - assert (length (firstn i l) = i) as L by (rewrite firstn_length; lia).
    destruct (Nat.eqb_spec j i) as [->|N]; cbn [andb].
    + rewrite app_nth2 by lia. rewrite L, Nat.sub_diag. reflexivity.
    + destruct (Nat.lt_ge_cases j i).
      * rewrite app_nth1 by lia. rewrite <- (firstn_skipn i l) at 2. now rewrite app_nth1 by lia.
      * rewrite app_nth2 by lia. rewrite L. cbn [app]. destruct (j - i)%nat as [|q] eqn:Q; [lia|]. cbn [nth].
        rewrite <- (firstn_skipn (S i) l) at 2. rewrite app_nth2 by (rewrite firstn_length; lia).
        f_equal. rewrite firstn_length. lia.
  - rewrite Bool.andb_false_r. rewrite firstn_all2 by lia. rewrite skipn_all2 by lia. now rewrite !app_nil_r.
Qed.
Lemma set_at_length l i a : length (set_at l i a) = length l.
Proof.
  unfold set_at. rewrite !app_length, firstn_length, skipn_length. destruct (Nat.ltb_spec i (length l)); cbn [length]; lia.
Qed.

(** scattering values to distinct positions *)
Lemma scatter_nth (kv : list (Z * A)) : forall res d j,
  NoDup (map fst kv) -> (forall k, In k (map fst kv) -> (0 <= k < Z.of_nat (length res))%Z) ->
  length (fold_left (fun res ia => set_at res (Z.to_nat (fst ia)) (snd ia)) kv res) = length res /\
  (forall v, In (Z.of_nat j, v) kv -> nth j (fold_left (fun res ia => set_at res (Z.to_nat (fst ia)) (snd ia)) kv res) d = v) /\
  (~ In (Z.of_nat j) (map fst kv) -> nth j (fold_left (fun res ia => set_at res (Z.to_nat (fst ia)) (snd ia)) kv res) d = nth j res d).
Proof.
  induction kv as [|[k a] kv IH]; intros res d j ND HR; cbn [fold_left map fst snd] in *.
  - repeat split; auto. intros v [].
  - inversion ND as [|? ? N1 N2]; subst.
    assert (0 <= k < Z.of_nat (length res))%Z as Hk by (apply HR; now left).
    destruct (IH (set_at res (Z.to_nat k) a) d j N2) as (L & I1 & I2).
    { intros q Hq. rewrite set_at_length. apply HR. now right. }
    rewrite L, set_at_length. split; [reflexivity|]. split.
    + intros v [E|Hv].
      * injection E as -> ->. rewrite I2 by assumption. rewrite set_at_nth, Nat2Z.id, Nat.eqb_refl.
        destruct (Nat.ltb_spec j (length res)); [reflexivity|lia].
      * now apply I1.
    + intros Hn. rewrite I2 by (intros q; apply Hn; now right). rewrite set_at_nth.
      destruct (Nat.eqb_spec j (Z.to_nat k)) as [->|]; [|reflexivity]. exfalso. apply Hn. left. lia.
Qed.
End Gen.

Lemma validate_spec groups F : validate_indices groups F = true <-> Permutation (concat groups) (map Z.of_nat (seq 0 F)).
Proof.
  unfold validate_indices. set (all := concat groups). rewrite !andb_true_iff, !forallb_forall.
  assert (zdup all = false <-> NoDup all) as ED.
  { unfold zdup. rewrite negb_false_iff, Nat.eqb_eq. split.
    - intros H. apply NoDup_incl_NoDup with (l := nodup Z.eq_dec all).
      + apply NoDup_nodup.
      + lia.
      + intros z Hz. now apply nodup_In in Hz.
    - intros H. now rewrite nodup_fixed_point. }
  rewrite negb_true_iff, ED. split.
  - intros ((HB & HN) & HC). apply NoDup_Permutation; [assumption| |].
    + apply FinFun.Injective_map_NoDup; [intros u v E; now apply Nat2Z.inj|apply seq_NoDup].
    + intros z. split.
      * intros Hz. specialize (HB z Hz). rewrite andb_true_iff, Z.leb_le, Z.ltb_lt in HB.
        apply in_map_iff. exists (Z.to_nat z). split; [lia|]. apply in_seq. lia.
      * intros Hz. apply in_map_iff in Hz. destruct Hz as (k & <- & Hk). specialize (HC k Hk).
        apply existsb_exists in HC. destruct HC as (y & Hy & E). apply Z.eqb_eq in E. now subst.
  - intros P. split; [split|].
    + intros z Hz. eapply Permutation_in in Hz; [|exact P]. apply in_map_iff in Hz. destruct Hz as (k & <- & Hk). apply in_seq in Hk.
      rewrite andb_true_iff, Z.leb_le, Z.ltb_lt. lia.
    + eapply Permutation_NoDup; [symmetry; exact P|]. apply FinFun.Injective_map_NoDup; [intros u v E; now apply Nat2Z.inj|apply seq_NoDup].
    + intros k Hk. apply existsb_exists. exists (Z.of_nat k). split; [|apply Z.eqb_refl].
      eapply Permutation_in; [symmetry; exact P|]. now apply in_map.
Qed.

Section ByIndex.
Context {A : Type}.

Lemma concat_map_map (d : A) groups l : concat (split_by_index d groups l) = map (fun i => nth (Z.to_nat i) l d) (concat groups).
Proof. unfold split_by_index. now rewrite concat_map. Qed.

Lemma combine_map_r {K V} (f : K -> V) l : combine l (map f l) = map (fun k => (k, f k)) l.
Proof. induction l as [|a l IH]; [reflexivity|]. cbn. now rewrite IH. Qed.

Lemma combine_fst {K V} (l : list K) (m : list V) : length l = length m -> map fst (combine l m) = l.
Proof. revert m. induction l as [|a l IH]; intros m H; destruct m; try discriminate; [reflexivity|]. cbn. f_equal. apply IH. cbn in H. lia. Qed.

Lemma perm_props groups F : Permutation (concat groups) (map Z.of_nat (seq 0 F)) ->
  NoDup (concat groups) /\ (forall k, In k (concat groups) -> (0 <= k < Z.of_nat F)%Z) /\ (forall j, (j < F)%nat -> In (Z.of_nat j) (concat groups)).
Proof.
  intros P. split; [|split].
  - eapply Permutation_NoDup; [symmetry; exact P|]. apply FinFun.Injective_map_NoDup; [intros u v E; now apply Nat2Z.inj|apply seq_NoDup].
  - intros z Hz. eapply Permutation_in in Hz; [|exact P]. apply in_map_iff in Hz. destruct Hz as (k & <- & Hk). apply in_seq in Hk. lia.
  - intros j Hj. eapply Permutation_in; [symmetry; exact P|]. apply in_map. apply in_seq. lia.
Qed.

Lemma c18_by_index (d : A) groups l : validate_indices groups (length l) = true ->
  merge_by_index d groups (length l) (split_by_index d groups l) = l.
Proof.
  intros V. apply validate_spec in V. destruct (perm_props _ _ V) as (ND & HB & HC).
  unfold merge_by_index. rewrite concat_map_map, combine_map_r.
  set (kv := map (fun k => (k, nth (Z.to_nat k) l d)) (concat groups)).
  assert (map fst kv = concat groups) as E by (unfold kv; rewrite map_map; apply map_id).
  assert (forall j, length (fold_left (fun res ia => set_at res (Z.to_nat (fst ia)) (snd ia)) kv (repeat d (length l))) = length l /\
     ((j < length l)%nat -> nth j (fold_left (fun res ia => set_at res (Z.to_nat (fst ia)) (snd ia)) kv (repeat d (length l))) d = nth j l d)) as S.
  { intros j. destruct (scatter_nth kv (repeat d (length l)) d j) as (L & I1 & I2).
    - now rewrite E.
    - rewrite E, repeat_length. exact HB.
    - rewrite repeat_length in L. split; [exact L|]. intros Hj. apply I1. unfold kv. apply in_map_iff. exists (Z.of_nat j).
      split; [now rewrite Nat2Z.id|]. now apply HC. }
  apply nth_ext with d d; [apply (S 0%nat)|]. intros j Hj. apply S. destruct (S 0%nat) as [L _]. now rewrite L in Hj.
Qed.

Lemma c18_by_index_tensors (d : A) groups l : validate_indices groups (length l) = true ->
  merge_tensors_by_index d groups (length l) (split_by_index d groups l) = l.
Proof.
  intros V. apply validate_spec in V. destruct (perm_props _ _ V) as (ND & HB & HC).
  unfold merge_tensors_by_index, inverse_order.
  set (kv := combine (concat groups) (seq 0 (length (concat groups)))).
  assert (map fst kv = concat groups) as E by (apply combine_fst; now rewrite seq_length).
  set (inv := fold_left (fun res ip => set_at res (Z.to_nat (fst ip)) (snd ip)) kv (repeat 0%nat (length l))).
  assert (forall j, length inv = length l /\ ((j < length l)%nat -> nth j (map (fun p => nth p (concat (split_by_index d groups l)) d) inv) d = nth j l d)) as S.
  { intros j. destruct (scatter_nth kv (repeat 0%nat (length l)) 0%nat j) as (L & I1 & I2).
    - now rewrite E.
    - rewrite E, repeat_length. exact HB.
    - fold inv in L, I1. rewrite repeat_length in L. split; [exact L|]. intros Hj.
      rewrite nth_indep with (d' := nth 0%nat (concat (split_by_index d groups l)) d) by (rewrite map_length; lia).
      rewrite (map_nth (fun p => nth p (concat (split_by_index d groups l)) d)).
      destruct (In_nth (concat groups) (Z.of_nat j) 0%Z (HC j Hj)) as (p & Hp & Ep).
      rewrite (I1 p).
      + rewrite concat_map_map. rewrite nth_indep with (d' := nth (Z.to_nat 0) l d) by (rewrite map_length; lia).
        rewrite (map_nth (fun i => nth (Z.to_nat i) l d)). rewrite Ep, Nat2Z.id. reflexivity.
      + unfold kv. rewrite <- Ep. 
        replace p with (nth p (seq 0 (length (concat groups))) 0%nat) at 2 by (rewrite seq_nth by lia; lia).
        rewrite <- combine_nth by now rewrite seq_length. apply nth_In. rewrite combine_length, seq_length. lia. }
  apply nth_ext with d d; [rewrite map_length; apply (S 0%nat)|]. intros j Hj. apply S. destruct (S 0%nat) as [L _]. now rewrite map_length, L in Hj.
Qed.
End ByIndex.

(** every input feature lands in exactly one split *)
Lemma part_consecutive n F ls : split_consecutive n (seq 0 F) = Ok ls -> concat ls = seq 0 F.
Proof. apply c18_consecutive. Qed.

Lemma concat_swap {A} (g : nat -> nat -> A) I : forall J,
  Permutation (concat (map (fun i => map (g i) J) I)) (concat (map (fun j => map (fun i => g i j) I) J)).
Proof.
  induction I as [|i I IH]; intros J.
  - cbn. induction J; [constructor|]. cbn. assumption.
  - cbn [map concat].
    transitivity (map (g i) J ++ concat (map (fun j => map (fun i => g i j) I) J)); [now apply Permutation_app_head|].
    clear IH. induction J as [|j J IHJ]; [constructor|]. cbn [map concat app]. constructor.
    rewrite app_assoc. etransitivity; [apply Permutation_app_tail, Permutation_app_comm|]. rewrite <- app_assoc.
    apply Permutation_app_head. exact IHJ.
Qed.

Lemma part_interleaved n w : (0 < n)%nat -> Permutation (concat (split_interleaved n (seq 0 (w * n)))) (seq 0 (w * n)).
Proof.
  intros Hn. unfold split_interleaved.
  rewrite (map_ext_in _ (fun i => map (fun j => nth (j * n + i) (seq 0 (w * n)) 0%nat) (seq 0 w))).
  2:{ intros i Hi. apply in_seq in Hi. apply strided_spec; [lia|now rewrite seq_length]. }
  etransitivity; [apply (concat_swap (fun i j => nth (j * n + i) (seq 0 (w * n)) 0%nat))|].
  rewrite blocks_concat by now rewrite seq_length. reflexivity.
Qed.

Lemma c18_part : forall n w ls groups F,
  (split_consecutive n (seq 0 F) = Ok ls -> Permutation (concat ls) (seq 0 F)) /\
  ((0 < n)%nat -> Permutation (concat (split_interleaved n (seq 0 (w * n)))) (seq 0 (w * n))) /\
  (validate_indices groups F = true -> Permutation (concat (split_by_index F groups (seq 0 F))) (seq 0 F)).
Proof.
  intros n w ls groups F. split; [|split].
  - intros H. rewrite (part_consecutive n F ls H). reflexivity.
  - apply part_interleaved.
  - intros V. apply validate_spec in V. rewrite concat_map_map.
    etransitivity; [apply Permutation_map; exact V|]. rewrite map_map.
    rewrite (map_ext_in _ (fun k => k)); [now rewrite map_id|].
    intros k Hk. apply in_seq in Hk. rewrite Nat2Z.id, seq_nth; lia.
Qed.

Lemma list_max_in l x : In x l -> (x <= list_max l)%nat.
Proof. intros H. pose proof (proj1 (list_max_le l (list_max l)) (Nat.le_refl _)) as F. rewrite Forall_forall in F. auto. Qed.

Lemma c19 : forall A (d : A) groups scopes i j g, nth_error groups i = Some g ->
  fts_by_index d groups scopes j i = nth_error (nth i (split_by_index d groups scopes) []) j.
Proof.
  intros A d groups scopes i j g Hg. unfold fts_by_index, split_by_index.
  assert (forall B (f : list Z -> list B), nth i (map f groups) [] = f g) as E.
  { intros B f. apply nth_error_nth. now apply map_nth_error. }
  rewrite !E. unfold pad_row.
  set (row := map (fun k => nth (Z.to_nat k) scopes d) g).
  destruct (Nat.lt_ge_cases j (length row)) as [H|H].
  - rewrite app_nth1 by now rewrite map_length. rewrite nth_indep with (d' := Some d) by now rewrite map_length.
    rewrite map_nth. symmetry. now apply nth_error_nth'.
  - rewrite app_nth2 by now rewrite map_length. rewrite (proj2 (nth_error_None row j)) by assumption. 
    generalize (j - length (map Some row))%nat (list_max (map (@length Z) groups) - length row)%nat.
    intros p q. revert p. induction q as [|q IH]; intros p; destruct p; cbn; auto.
Qed.

Lemma c20 groups F : mk_split_by_index (Some groups) F = Ok groups <-> Permutation (concat groups) (map Z.of_nat (seq 0 F)).
Proof. rewrite <- validate_spec. cbn. destruct (validate_indices groups F); split; intros; congruence. Qed.
Lemma c20_err groups F : mk_split_by_index (Some groups) F = Err <-> ~ Permutation (concat groups) (map Z.of_nat (seq 0 F)).
Proof. rewrite <- validate_spec. cbn. destruct (validate_indices groups F); split; intros; congruence. Qed.
