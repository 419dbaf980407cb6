(** Piecewise linear leaves: initialize and the layout of log_likelihood. *)
From Coq Require Import List Arith ZArith Bool Reals Lra Lia.
From Coquelicot Require Import Coquelicot.
From Verif Require Import Base ScopeModel CircuitModel Integral LeafModel SampleModel SampleSpec CtxModel MleModel CtxProofs IvProofs HistModel HistSpec HistProofs HistEdges PwlModel PwlSpec PwlProofs.
Import ListNotations.
Local Open Scope R_scope.

(** ** the polygon *)
Lemma polygon_interp w M x : pw_ok w -> polygon w x (interp_at M w x).
Proof.
  intros OK. destruct (Rle_dec x (knot w 0)) as [A|A]; [right; split; [now left|now apply interp_before]|].
  destruct (Rle_dec (knot w (nknots w - 1)) x) as [B|B]; [right; split; [now right|now apply interp_after]|].
  destruct (find_piece w x ltac:(lra) ltac:(lra)) as (k & Hk & K). left. exists k. split; [exact Hk|]. split; [exact K|].
  now apply (interp_line w OK M k x).
Qed.
Lemma polygon_fun w x v M : pw_ok w -> polygon w x v -> v = interp_at M w x.
Proof.
  intros OK [(k & Hk & K & ->)|[[H|H] ->]].
  - symmetry. now apply (interp_line w OK M k x).
  - symmetry. now apply interp_before.
  - symmetry. now apply interp_after.
Qed.

Lemma area_positive w k : pw_ok w -> 0 < height w k -> 0 < polygon_area w.
Proof.
  intros OK H. rewrite <- (area_polygon w). destruct k as [|k]; [rewrite (height_first w OK) in H; lra|].
  assert (S k < nknots w)%nat as Hk.
  { destruct (le_lt_dec (nknots w) (S k)) as [L|L]; [|exact L]. exfalso. unfold height in H. rewrite nth_overflow in H by (rewrite (ys_len w OK); exact L). lra. }
  unfold area. apply Rlt_le_trans with (trapezoid w k).
  - unfold trapezoid. pose proof (knot_step w OK k Hk). pose proof (height_nonneg w OK k). apply Rmult_lt_0_compat; lra.
  - apply (bsum_term_le (nknots w - 1) (trapezoid w) k); [lia|intros i Hi; apply (trapezoid_nonneg w OK); lia].
Qed.

Lemma normalise_ok xs ys : pw_ok (mkPw xs ys) -> 0 < polygon_area (mkPw xs ys) ->
  pw_ok (normalise xs ys) /\ polygon_area (normalise xs ys) = 1 /\ p_xs (normalise xs ys) = xs /\
  (forall k, height (normalise xs ys) k = nth k ys 0 / polygon_area (mkPw xs ys)).
Proof.
  intros OK A. set (a := polygon_area (mkPw xs ys)) in *.
  assert (area (mkPw xs ys) (length xs - 1) = a) as EA by exact (area_polygon (mkPw xs ys)).
  unfold normalise. rewrite EA. replace (rlt 0 a) with true by (symmetry; now apply rlt_spec).
  assert (forall k, nth k (map (fun y => y / a) ys) 0 = nth k ys 0 / a) as EN.
  { intros k. destruct (le_lt_dec (length ys) k) as [L|L].
    - rewrite !nth_overflow by (try rewrite map_length; exact L). unfold Rdiv. ring.
    - rewrite (nth_indep _ 0 (0 / a)) by (now rewrite map_length). apply (map_nth (fun y => y / a)). }
  split; [|split; [|split; [reflexivity|exact EN]]].
  - destruct OK as (H1 & H2 & H3 & H4 & H5 & H6). split; [exact H1|]. split; [cbn [p_ys p_xs]; rewrite map_length; exact H2|]. split; [exact H3|].
    cbn [p_ys]. rewrite map_length. split; [|split].
    + intros k Hk. rewrite EN. apply Rmult_le_pos; [now apply H4|]. left. now apply Rinv_0_lt_compat.
    + rewrite EN. cbn [p_ys] in H5. rewrite H5. unfold Rdiv. ring.
    + rewrite EN. cbn [p_ys] in H6. rewrite H6. unfold Rdiv. ring.
  - unfold polygon_area. cbn [p_xs p_ys].
    rewrite (bsum_ext (length xs - 1) _ (fun k => / a * ((nth (S k) xs 0 - nth k xs 0) * (nth k ys 0 + nth (S k) ys 0) / 2))).
    + rewrite bsum_scal. change (/ a * a = 1). field. lra.
    + intros k Hk. rewrite !EN. field. lra.
Qed.

(** ** histograms *)
Definition inb (es : list R) (b : nat) (x : R) : bool :=
  rle (nth b es 0) x && (rlt x (nth (S b) es 0) || (Nat.eqb (S (S b)) (length es) && rle x (nth (S b) es 0))).
Lemma inb_spec es b x : inb es b x = true <-> in_bin_of es b x.
Proof.
  unfold inb, in_bin_of. rewrite andb_true_iff, orb_true_iff, andb_true_iff, rle_spec, rlt_spec, rle_spec, Nat.eqb_eq. split; intros [H K]; split; auto.
  - destruct K as [K|[K1 K2]]; [auto|]. destruct (Rle_lt_or_eq_dec _ _ K2); [auto|right; auto].
  - destruct K as [K|[K1 ->]]; [auto|right; split; [exact K1|lra]].
Qed.
Lemma count_cons es x l b : count_in es (x :: l) b = ((if inb es b x then 1 else 0) + count_in es l b)%nat.
Proof. unfold count_in. cbn [filter]. fold (inb es b x). destruct (inb es b x); reflexivity. Qed.
Lemma count_holds es b l : holds_for (in_bin_of es b) l (count_in es l b).
Proof.
  induction l as [|x l IH]; [constructor|]. rewrite count_cons. destruct (inb es b x) eqn:E; cbn [Nat.add].
  - apply h_yes; [now apply inb_spec|exact IH].
  - apply h_no; [intros H; apply inb_spec in H; congruence|exact IH].
Qed.
Lemma holds_fun {A} (p : A -> Prop) l k k' : holds_for p l k -> holds_for p l k' -> k = k'.
Proof. intros H. revert k'. induction H; intros k' K; inversion K; subst; try contradiction; auto. Qed.

Section Edges.
Variable es : list R.
Hypothesis L2 : (2 <= length es)%nat.
Hypothesis INC : sorted es.
Notation B := (length es - 1)%nat.
Lemma es_le i j : (i <= j)%nat -> (j < length es)%nat -> nth i es 0 <= nth j es 0.
Proof. intros H Hj. destruct (Nat.eq_dec i j) as [->|N]; [lra|]. left. apply (nth_mono es INC); lia. Qed.
Lemma bin_of x : nth 0 es 0 <= x <= nth B es 0 -> exists b, (b < B)%nat /\ in_bin_of es b x.
Proof.
  intros [H1 H2]. destruct (Rle_lt_or_eq_dec _ _ H2) as [L|E].
  - destruct (find_bin (fun k => nth k es 0) B x H1 L) as (b & Hb & K). exists b. split; [exact Hb|]. split; [lra|left; lra].
  - exists (B - 1)%nat. split; [lia|]. replace (S (B - 1)) with B by lia. split; [|right].
    + rewrite E. apply es_le; lia.
    + replace (S (B - 1)) with B by lia. split; [lia|exact E].
Qed.
Lemma bin_one b b' x : (b < B)%nat -> (b' < B)%nat -> in_bin_of es b x -> in_bin_of es b' x -> b = b'.
Proof.
  assert (forall b b', (b < b')%nat -> (b' < B)%nat -> in_bin_of es b x -> in_bin_of es b' x -> False) as K.
  { intros c c' H Hc [C1 C2] [D1 _]. destruct C2 as [C2|[C2 _]]; [|lia]. pose proof (es_le (S c) c' ltac:(lia) ltac:(lia)). lra. }
  intros H H' P P'. destruct (lt_eq_lt_dec b b') as [[Q|Q]|Q]; [exfalso; eapply K; eauto|exact Q|exfalso; eapply (K b' b); eauto].
Qed.
Lemma indicator_sum (f : nat -> bool) n i : (i < n)%nat -> f i = true -> (forall j, (j < n)%nat -> f j = true -> j = i) ->
  list_sum (map (fun b => if f b then 1 else 0)%nat (seq 0 n)) = 1%nat.
Proof.
  intros Hi Fi U. assert (forall s m, list_sum (map (fun b => if f b then 1 else 0)%nat (seq s m)) =
    length (filter f (seq s m))) as E.
  { intros s m. revert s. induction m as [|m IH]; intros s; [reflexivity|]. cbn [seq map filter list_sum fold_right].
    fold (list_sum (map (fun b => if f b then 1 else 0)%nat (seq (S s) m))). rewrite IH. destruct (f s); reflexivity. }
  rewrite E. assert (incl (filter f (seq 0 n)) [i]) as I1.
  { intros j Hj. apply filter_In in Hj. destruct Hj as [H1 H2]. apply in_seq in H1. left. symmetry. apply U; [lia|exact H2]. }
  assert (incl [i] (filter f (seq 0 n))) as I2.
  { intros j [<-|[]]. apply filter_In. split; [apply in_seq; lia|exact Fi]. }
  assert (NoDup (filter f (seq 0 n))) as ND by (apply NoDup_filter, seq_NoDup).
  pose proof (NoDup_incl_length ND I1). pose proof (NoDup_incl_length (NoDup_cons i (fun H : In i [] => H) (NoDup_nil nat)) I2). cbn [length] in *. lia.
Qed.
Lemma list_sum_plus {A} (f g : A -> nat) l : list_sum (map (fun a => f a + g a)%nat l) = (list_sum (map f l) + list_sum (map g l))%nat.
Proof. unfold list_sum. induction l as [|a l IH]; [reflexivity|]. cbn [map fold_right]. rewrite IH. lia. Qed.
Lemma in_range_all l : (forall x, In x l -> nth 0 es 0 <= x <= nth B es 0) -> in_range es l = length l.
Proof.
  induction l as [|x l IH]; intros H.
  - unfold in_range. cbn [length]. unfold count_in; cbn. induction (seq 0 B) as [|a s IHs]; [reflexivity|]. exact IHs.
  - unfold in_range. rewrite (map_ext _ (fun b => (if inb es b x then 1 else 0) + count_in es l b)%nat) by (intros; apply count_cons).
    rewrite (list_sum_plus (fun b => if inb es b x then 1 else 0)%nat (count_in es l)). assert (in_range es l = length l) as IH' by (apply IH; intros; apply H; now right).
    unfold in_range in IH'. rewrite IH'.
    destruct (bin_of x (H x (or_introl eq_refl))) as (b & Hb & P). rewrite (indicator_sum (fun b => inb es b x) B b); [reflexivity|exact Hb|now apply inb_spec|].
    intros j Hj Q. apply inb_spec in Q. now apply (bin_one j b x).
Qed.
Lemma densities_nth l b : (b < B)%nat ->
  nth b (densities es l) 0 = INR (count_in es l b) / (INR (in_range es l) * (nth (S b) es 0 - nth b es 0)).
Proof.
  intros Hb. unfold densities. set (g := fun b => _). rewrite (nth_indep _ 0 (g 0%nat)) by (rewrite map_length, seq_length; exact Hb).
  rewrite map_nth, seq_nth by exact Hb. reflexivity.
Qed.
Lemma densities_len l : length (densities es l) = B.
Proof. unfold densities. now rewrite map_length, seq_length. Qed.
Lemma width_pos b : (b < B)%nat -> 0 < nth (S b) es 0 - nth b es 0.
Proof. intros Hb. pose proof (INC b ltac:(lia)). lra. Qed.
Lemma densities_nonneg l d : In d (densities es l) -> 0 <= d.
Proof.
  intros H. apply in_map_iff in H. destruct H as (b & <- & Hb). apply in_seq in Hb.
  unfold Rdiv. apply Rmult_le_pos; [apply pos_INR|].
  destruct (Req_dec (INR (in_range es l) * (nth (S b) es 0 - nth b es 0)) 0) as [E|E]; [rewrite E, Rinv_0; lra|].
  left. apply Rinv_0_lt_compat. pose proof (width_pos b ltac:(lia)). pose proof (pos_INR (in_range es l)).
  destruct H0 as [P|P]; [now apply Rmult_lt_0_compat|rewrite <- P, Rmult_0_l in E; lra].
Qed.
Lemma densities_some l : (0 < in_range es l)%nat -> exists b, (b < B)%nat /\ 0 < nth b (densities es l) 0.
Proof.
  intros H. assert (exists b, (b < B)%nat /\ (0 < count_in es l b)%nat) as (b & Hb & Cb).
  { unfold in_range in H. assert (forall s m, (0 < list_sum (map (count_in es l) (seq s m)))%nat -> exists b, (s <= b < s + m)%nat /\ (0 < count_in es l b)%nat) as K.
    { intros s m. revert s. induction m as [|m IH]; intros s P; [cbn in P; lia|]. cbn [seq map] in P. unfold list_sum in P. cbn [fold_right] in P.
      fold (list_sum (map (count_in es l) (seq (S s) m))) in P. destruct (count_in es l s) as [|c] eqn:E.
      - destruct (IH (S s)) as (b & Hb & Q); [lia|]. exists b. split; [lia|exact Q].
      - exists s. split; [lia|rewrite E; lia]. }
    destruct (K 0%nat B H) as (b & Hb & Q). exists b. split; [lia|exact Q]. }
  exists b. split; [exact Hb|]. rewrite densities_nth by exact Hb. apply Rmult_lt_0_compat; [now apply lt_0_INR|].
  apply Rinv_0_lt_compat, Rmult_lt_0_compat; [now apply lt_0_INR|now apply width_pos].
Qed.
End Edges.

Lemma smooth_len alpha n ds : length (smooth alpha n ds) = length ds.
Proof. unfold smooth. destruct (rlt 0 alpha); [apply map_length|reflexivity]. Qed.
Lemma smooth_nth alpha n ds b : (b < length ds)%nat -> nth b (smooth alpha n ds) 0 =
  if rlt 0 alpha then (nth b ds 0 * INR n + alpha) / (INR n + INR (length ds) * alpha) else nth b ds 0.
Proof.
  intros Hb. unfold smooth. destruct (rlt 0 alpha); [|reflexivity]. set (g := fun d => _).
  rewrite (nth_indep _ 0 (g 0)) by (now rewrite map_length). now rewrite map_nth.
Qed.
Lemma smooth_nonneg alpha n ds b : (forall d, In d ds -> 0 <= d) -> (b < length ds)%nat -> 0 <= nth b (smooth alpha n ds) 0.
Proof.
  intros H Hb. rewrite smooth_nth by exact Hb. pose proof (H _ (nth_In ds 0 Hb)). destruct (rlt 0 alpha) eqn:E; [|assumption].
  apply rlt_spec in E. pose proof (pos_INR n). pose proof (pos_INR (length ds)). assert (0 < INR (length ds)) by (apply lt_0_INR; lia).
  assert (0 < INR (length ds) * alpha) by now apply Rmult_lt_0_compat.
  apply Rmult_le_pos; [|left; apply Rinv_0_lt_compat; lra]. assert (0 <= nth b ds 0 * INR n) by now apply Rmult_le_pos. lra.
Qed.
Lemma smooth_pos alpha n ds b : (forall d, In d ds -> 0 <= d) -> (b < length ds)%nat -> 0 < nth b ds 0 -> 0 < nth b (smooth alpha n ds) 0.
Proof.
  intros H Hb P. rewrite smooth_nth by exact Hb. destruct (rlt 0 alpha) eqn:E; [|assumption].
  apply rlt_spec in E. pose proof (pos_INR n). assert (0 < INR (length ds)) by (apply lt_0_INR; lia).
  assert (0 < INR (length ds) * alpha) by now apply Rmult_lt_0_compat.
  apply Rmult_lt_0_compat; [|apply Rinv_0_lt_compat; lra]. assert (0 <= nth b ds 0 * INR n) by (apply Rmult_le_pos; lra). lra.
Qed.

(** knots [a, inner..., b] and heights [0, ds..., 0] *)
Lemma nth_mid {A} (d x : A) l y k : nth k (x :: l ++ [y]) d = if Nat.eqb k 0 then x else if Nat.eqb k (S (length l)) then y else nth (k - 1) l d.
Proof.
  destruct k as [|k]; [reflexivity|]. cbn [nth Nat.eqb]. replace (S k - 1)%nat with k by lia.
  destruct (Nat.eqb_spec k (length l)) as [->|N].
  - rewrite app_nth2 by lia. now rewrite Nat.sub_diag.
  - destruct (le_lt_dec (length l) k) as [L|L]; [|now rewrite app_nth1].
    rewrite !nth_overflow by (rewrite ?app_length; cbn; lia). reflexivity.
Qed.
Lemma framed_ok a inner b ds : inner <> [] -> sorted inner -> a < hd 0 inner -> last inner 0 < b -> length ds = length inner ->
  (forall k, (k < length ds)%nat -> 0 <= nth k ds 0) -> pw_ok (mkPw (a :: inner ++ [b]) (0 :: ds ++ [0])).
Proof.
  intros NE SO Ha Hb EL NN. assert (0 < length inner)%nat as LP by (destruct inner; [congruence|cbn; lia]).
  assert (length (a :: inner ++ [b]) = S (S (length inner))) as L1 by (cbn [length]; rewrite app_length; cbn; lia).
  assert (length (0 :: ds ++ [0]) = S (S (length inner))) as L3 by (cbn [length]; rewrite app_length; cbn; lia).
  unfold pw_ok. cbn [p_xs p_ys]. rewrite L1, L3. split; [lia|]. split; [reflexivity|]. split; [|split; [|split]].
  - intros k Hk. rewrite !nth_mid. cbn [Nat.eqb]. replace (S k - 1)%nat with k by lia.
    replace (Nat.eqb k (S (length inner))) with false by (symmetry; apply Nat.eqb_neq; lia).
    destruct (Nat.eqb_spec k (length inner)) as [E|E].
    + destruct (Nat.eqb_spec k 0) as [E0|E0]; [lia|]. rewrite E. replace (length inner - 1)%nat with (pred (length inner)) by lia.
      assert (forall (l : list R) d, nth (pred (length l)) l d = last l d) as NL.
      { intros l d. induction l as [|z [|z' l] IH]; [reflexivity|reflexivity|]. exact IH. }
      now rewrite NL.
    + destruct (Nat.eqb_spec k 0) as [->|E0].
      * destruct inner; [congruence|exact Ha].
      * replace (nth k inner 0) with (nth (S (k - 1)) inner 0) by (f_equal; lia). apply SO. lia.
  - intros k Hk. rewrite nth_mid. destruct (Nat.eqb k 0) eqn:E0; [lra|]. destruct (Nat.eqb_spec k (S (length ds))) as [E|E]; [lra|].
    apply Nat.eqb_neq in E0. apply NN. lia.
  - reflexivity.
  - replace (S (S (length inner)) - 1)%nat with (S (length ds)) by lia. rewrite nth_mid. cbn [Nat.eqb]. now rewrite Nat.eqb_refl.
Qed.
Lemma last_nth (l : list R) : last l 0 = nth (length l - 1) l 0.
Proof. induction l as [|z [|z' l] IH]; [reflexivity|reflexivity|]. change (last (z' :: l) 0 = nth (length (z' :: l)) (z :: z' :: l) 0). rewrite IH. cbn [length nth]. replace (S (length l) - 1)%nat with (length l) by lia. reflexivity. Qed.
Lemma framed_fit a inner b ds : inner <> [] -> sorted inner -> a < hd 0 inner -> last inner 0 < b -> length ds = length inner ->
  (forall k, (k < length ds)%nat -> 0 <= nth k ds 0) -> (exists k, (k < length ds)%nat /\ 0 < nth k ds 0) ->
  let w := normalise (a :: inner ++ [b]) (0 :: ds ++ [0]) in
  pw_ok w /\ polygon_area w = 1 /\ p_xs w = a :: inner ++ [b] /\
  exists Z, 0 < Z /\ Z = polygon_area (mkPw (a :: inner ++ [b]) (0 :: ds ++ [0])) /\
    forall k, (k < length ds)%nat -> height w (S k) = nth k ds 0 / Z.
Proof.
  intros NE SO Ha Hb EL NN (k0 & Hk0 & P0). pose proof (framed_ok a inner b ds NE SO Ha Hb EL NN) as OK.
  assert (forall k, (k < length ds)%nat -> nth (S k) (0 :: ds ++ [0]) 0 = nth k ds 0) as EH.
  { intros k Hk. cbn [nth]. now rewrite app_nth1. }
  assert (0 < polygon_area (mkPw (a :: inner ++ [b]) (0 :: ds ++ [0]))) as A.
  { apply (area_positive _ (S k0) OK). unfold height. cbn [p_ys]. now rewrite EH. }
  destruct (normalise_ok _ _ OK A) as (R1 & R2 & R3 & R4). cbv zeta. split; [exact R1|]. split; [exact R2|]. split; [exact R3|].
  eexists. split; [exact A|]. split; [reflexivity|]. intros k Hk. now rewrite R4, EH.
Qed.

(** ** continuous features *)
Definition mids (es : list R) : list R := map (fun b => nth b es 0 + (nth (S b) es 0 - nth b es 0) / 2) (seq 0 (length es - 1)).
Lemma mids_len es : length (mids es) = (length es - 1)%nat. Proof. unfold mids. now rewrite map_length, seq_length. Qed.
Lemma mids_nth es b : (b < length es - 1)%nat -> nth b (mids es) 0 = (nth b es 0 + nth (S b) es 0) / 2.
Proof.
  intros Hb. unfold mids. set (g := fun b => _). rewrite (nth_indep _ 0 (g 0%nat)) by (rewrite map_length, seq_length; exact Hb).
  rewrite map_nth, seq_nth by exact Hb. unfold g. cbn [Nat.add]. field.
Qed.
Lemma mids_frame es : (2 <= length es)%nat -> sorted es -> mids es <> [] /\ sorted (mids es) /\
  nth 0 es 0 - / 10 ^ 8 < hd 0 (mids es) /\ last (mids es) 0 < nth (length es - 1) es 0 + / 10 ^ 8.
Proof.
  intros L S. pose proof eps8. split; [|split; [|split]].
  - intros E. pose proof (mids_len es) as K. rewrite E in K. cbn in K. lia.
  - intros k Hk. rewrite mids_len in Hk. rewrite !mids_nth by lia. pose proof (S k ltac:(lia)). pose proof (S (Datatypes.S k) ltac:(lia)). lra.
  - replace (hd 0 (mids es)) with (nth 0 (mids es) 0) by (destruct (mids es); reflexivity). rewrite mids_nth by lia. pose proof (S 0%nat ltac:(lia)). lra.
  - rewrite last_nth, mids_len, mids_nth by lia. replace (Datatypes.S (length es - 1 - 1)) with (length es - 1)%nat by lia.
    pose proof (S (length es - 1 - 1)%nat ltac:(lia)) as K. replace (Datatypes.S (length es - 1 - 1)) with (length es - 1)%nat in K by lia. lra.
Qed.
Lemma edges_sorted l es : l <> [] -> bin_edges l None = Ok es -> (2 <= length es)%nat /\ sorted es /\
  (forall x, In x l -> nth 0 es 0 <= x <= nth (length es - 1) es 0) /\
  (forall b c, (b < length es - 1)%nat -> (c < length es - 1)%nat -> nth (S b) es 0 - nth b es 0 = nth (S c) es 0 - nth c es 0).
Proof.
  intros NE H. destruct (bin_edges_spec l None es H) as (a & b & n & Hn & Hab & HO & EL & E0 & En & W).
  destruct (outer_spec l None a b HO) as (_ & K & _). assert (length es - 1 = n)%nat as EB by lia. rewrite EB.
  assert (0 < (b - a) / INR n) as P by (apply Rmult_lt_0_compat; [lra|apply Rinv_0_lt_compat, lt_0_INR; lia]).
  split; [lia|]. split; [|split].
  - intros k Hk. specialize (W k ltac:(lia)). lra.
  - intros x Hx. rewrite E0, En. now apply K.
  - intros i j Hi Hj. now rewrite (W i Hi), (W j Hj).
Qed.
Lemma bin_edges_total l : exists es, bin_edges l None = Ok es.
Proof.
  unfold bin_edges. destruct l as [|x l]; [eexists; reflexivity|]. unfold outer_edges. cbn [bind].
  destruct (Req_EM_T _ _); eexists; reflexivity.
Qed.

Lemma fit_continuous alpha mn mx l : 0 <= alpha -> l <> [] -> exists es w Z,
  bin_edges l None = Ok es /\ fit_feature alpha (PContinuous mn mx) l = Ok w /\ pw_ok w /\ polygon_area w = 1 /\ 0 < Z /\
  p_xs w = (nth 0 es 0 - / 10 ^ 8) :: mids es ++ [nth (length es - 1) es 0 + / 10 ^ 8] /\
  forall b, (b < length es - 1)%nat -> height w (S b) = Z * (INR (count_in es l b) / (nth (S b) es 0 - nth b es 0) + alpha).
Proof.
  intros Ha NE. destruct (bin_edges_total l) as (es & HE). destruct (edges_sorted l es NE HE) as (L2 & SO & IN & EQ).
  destruct (mids_frame es L2 SO) as (F1 & F2 & F3 & F4).
  set (ds := smooth alpha (length l) (densities es l)).
  assert (length (densities es l) = length es - 1)%nat as LD by apply densities_len.
  assert (length ds = length (mids es)) as EL by (unfold ds; rewrite smooth_len, mids_len; exact LD).
  assert (0 < length l)%nat as LL by (destruct l; [congruence|cbn; lia]).
  assert (in_range es l = length l) as IR by (apply in_range_all; assumption).
  destruct (framed_fit (nth 0 es 0 - / 10 ^ 8) (mids es) (nth (length es - 1) es 0 + / 10 ^ 8) ds F1 F2 F3 F4 EL) as (W1 & W2 & W3 & Z & Z1 & _ & Z2).
  { intros k Hk. apply smooth_nonneg; [intros d Hd; exact (densities_nonneg es L2 SO l d Hd)|]. unfold ds in Hk. now rewrite smooth_len in Hk. }
  { destruct (densities_some es L2 SO l ltac:(lia)) as (b & Hb & P). exists b. rewrite EL, mids_len. split; [exact Hb|].
    apply smooth_pos; [intros d Hd; exact (densities_nonneg es L2 SO l d Hd)|rewrite LD; exact Hb|exact P]. }
  set (w := normalise _ _) in *.
  assert (fit_feature alpha (PContinuous mn mx) l = Ok w) as EF.
  { unfold fit_feature. destruct l as [|x0 l0]; [congruence|]. rewrite HE. reflexivity. }
  set (n := INR (length l)) in *. set (B := INR (length es - 1)).
  assert (0 < n) as Pn by (now apply lt_0_INR). assert (0 < B) as PB by (apply lt_0_INR; lia).
  exists es, w, ((if rlt 0 alpha then / (n + B * alpha) else / n) / Z).
  split; [exact HE|]. split; [exact EF|]. split; [exact W1|]. split; [exact W2|]. split.
  { apply Rmult_lt_0_compat; [|now apply Rinv_0_lt_compat]. destruct (rlt 0 alpha); apply Rinv_0_lt_compat; [|exact Pn].
    assert (0 <= B * alpha) by (apply Rmult_le_pos; lra). lra. }
  split; [exact W3|]. intros b Hb. rewrite Z2 by (rewrite EL, mids_len; exact Hb). unfold ds. rewrite smooth_nth by (rewrite LD; exact Hb).
  rewrite LD. fold B. rewrite densities_nth by exact Hb. rewrite IR. fold n. pose proof (width_pos es L2 SO b Hb) as WP.
  destruct (rlt 0 alpha) eqn:EA.
  - apply rlt_spec in EA. assert (0 < B * alpha) by now apply Rmult_lt_0_compat. field. repeat split; lra.
  - apply rlt_false in EA. replace alpha with 0 by lra. field. repeat split; lra.
Qed.
Lemma fit_continuous_empty alpha mn mx : 0 <= alpha -> py_or mn 0 < py_or mx 1 -> exists w,
  fit_feature alpha (PContinuous mn mx) [] = Ok w /\ pw_ok w /\ polygon_area w = 1 /\
  p_xs w = (py_or mn 0 - / 10 ^ 8) :: mids (linspace (py_or mn 0) (py_or mx 1) 10) ++ [py_or mx 1 + / 10 ^ 8].
Proof.
  intros Ha H. set (es := linspace (py_or mn 0) (py_or mx 1) 10). pose proof (linspace_length (py_or mn 0) (py_or mx 1) 10) as LE.
  destruct (linspace_spec (py_or mn 0) (py_or mx 1) 10 ltac:(lia) H) as (S1 & S2 & S3). fold es in LE, S1, S2, S3.
  assert (sorted es) as SO by (intros k Hk; destruct (S3 k ltac:(lia)); lra).
  destruct (mids_frame es ltac:(lia) SO) as (F1 & F2 & F3 & F4).
  set (ds0 := map (fun _ : nat => 1 / INR 10) (seq 0 10)). set (ds := smooth alpha 0 ds0).
  assert (length ds = length (mids es)) as EL by (unfold ds; rewrite smooth_len, mids_len, LE; reflexivity).
  assert (0 < 1 / INR 10) as P10 by (apply Rmult_lt_0_compat; [lra|apply Rinv_0_lt_compat, lt_0_INR; lia]).
  assert (forall d, In d ds0 -> 0 <= d) as NN by (intros d Hd; apply in_map_iff in Hd; destruct Hd as (? & <- & _); lra).
  destruct (framed_fit (nth 0 es 0 - / 10 ^ 8) (mids es) (nth (length es - 1) es 0 + / 10 ^ 8) ds F1 F2 F3 F4 EL) as (W1 & W2 & W3 & _).
  { intros k Hk. apply smooth_nonneg; [exact NN|]. unfold ds in Hk. now rewrite smooth_len in Hk. }
  { exists 0%nat. split; [rewrite EL, mids_len; lia|]. apply smooth_pos; [exact NN|cbn; lia|exact P10]. }
  rewrite <- S1, <- S2. replace 10%nat with (length es - 1)%nat by lia. eexists. split; [reflexivity|]. 
  split; [exact W1|]. split; [exact W2|exact W3].
Qed.
