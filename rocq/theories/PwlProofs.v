(** Piecewise linear entries: interpolation, integral, mode, sampling. *)
From Coq Require Import List Arith ZArith Bool Reals Lra Lia.
From Coquelicot Require Import Coquelicot.
From Verif Require Import Base ScopeModel CircuitModel Integral LeafModel LeafProofs SampleModel SampleSpec CtxModel MleModel CtxProofs IvProofs HistModel HistSpec HistProofs HistEdges PwlModel PwlSpec.
Import ListNotations.
Local Open Scope R_scope.

Lemma tiny_pos : 0 < tiny. Proof. unfold tiny. apply Rinv_0_lt_compat, pow_lt. lra. Qed.

(** counting in a sorted list *)
Lemma filter_prefix {A} (f : A -> bool) (d : A) l i : (i <= length l)%nat -> (forall k, (k < i)%nat -> f (nth k l d) = true) ->
  (forall k, (i <= k < length l)%nat -> f (nth k l d) = false) -> length (filter f l) = i.
Proof.
  revert i; induction l as [|a l IH]; intros i Hi H1 H2; cbn [filter length] in *; [lia|].
  destruct i as [|i].
  - rewrite (H2 0%nat ltac:(lia) : f a = false). apply (IH 0%nat); [lia|intros; lia|]. intros k Hk. apply (H2 (S k)). lia.
  - rewrite (H1 0%nat ltac:(lia) : f a = true). cbn [length]. f_equal. apply IH; [lia| |].
    + intros k Hk. apply (H1 (S k)). lia.
    + intros k Hk. apply (H2 (S k)). lia.
Qed.

Section Entry.
Variable w : pw.
Hypothesis OK : pw_ok w.
Notation n := (nknots w).

Lemma n2 : (2 <= n)%nat. Proof. exact (proj1 OK). Qed.
Lemma ys_len : length (p_ys w) = n. Proof. exact (proj1 (proj2 OK)). Qed.
Lemma knot_step k : (S k < n)%nat -> knot w k < knot w (S k). Proof. exact (proj1 (proj2 (proj2 OK)) k). Qed.
Lemma knot_lt i j : (i < j)%nat -> (j < n)%nat -> knot w i < knot w j.
Proof.
  intros H Hj. induction j as [|j IH]; [lia|]. destruct (Nat.eq_dec i j) as [->|N]; [now apply knot_step|].
  apply Rlt_trans with (knot w j); [apply IH; lia|now apply knot_step].
Qed.
Lemma knot_le i j : (i <= j)%nat -> (j < n)%nat -> knot w i <= knot w j.
Proof. intros H Hj. destruct (Nat.eq_dec i j) as [->|N]; [lra|]. left. apply knot_lt; lia. Qed.
Lemma height_nonneg k : 0 <= height w k.
Proof.
  destruct (le_lt_dec n k) as [H|H]; [unfold height; rewrite nth_overflow; [lra|rewrite ys_len; exact H]|].
  apply (proj1 (proj2 (proj2 (proj2 OK)))). now rewrite ys_len.
Qed.
Lemma height_first : height w 0 = 0. Proof. exact (proj1 (proj2 (proj2 (proj2 (proj2 OK))))). Qed.
Lemma height_last : height w (n - 1) = 0. Proof. rewrite <- ys_len. exact (proj2 (proj2 (proj2 (proj2 (proj2 OK))))). Qed.

Lemma search_in k x : (S k < n)%nat -> knot w k < x -> x <= knot w (S k) -> search_left (p_xs w) x = S k.
Proof.
  intros Hk H1 H2. unfold search_left. apply (filter_prefix _ 0); [unfold nknots in Hk; lia| |].
  - intros j Hj. apply rlt_spec. change (knot w j < x). pose proof (knot_le j k ltac:(lia) ltac:(lia)). lra.
  - intros j Hj. apply rlt_false. change (x <= knot w j). pose proof (knot_le (S k) j ltac:(lia) (proj2 Hj)). lra.
Qed.
Lemma search_before x : x <= knot w 0 -> search_left (p_xs w) x = 0%nat.
Proof.
  intros H. unfold search_left. apply (filter_prefix _ 0); [lia|intros; lia|]. intros j Hj. apply rlt_false. change (x <= knot w j).
  pose proof (knot_le 0 j ltac:(lia) (proj2 Hj)). lra.
Qed.
Lemma search_after x : knot w (n - 1) < x -> search_left (p_xs w) x = n.
Proof.
  intros H. pose proof n2. unfold search_left. apply (filter_prefix _ 0); [unfold nknots; lia| |intros; unfold nknots in *; lia].
  intros j Hj. apply rlt_spec. change (knot w j < x). pose proof (knot_le j (n - 1) ltac:(lia) ltac:(lia)). lra.
Qed.

Definition line (k : nat) (x : R) : R :=
  height w k + (height w (S k) - height w k) * (x - knot w k) / (knot w (S k) - knot w k).
Lemma line_nonneg k x : (S k < n)%nat -> knot w k <= x <= knot w (S k) -> 0 <= line k x.
Proof.
  intros Hk Hx. pose proof (knot_step k Hk) as S. unfold line. set (t := (x - knot w k) / (knot w (Datatypes.S k) - knot w k)).
  assert (0 <= t <= 1) as T.
  { unfold t. split; [apply Rmult_le_pos; [lra|left; apply Rinv_0_lt_compat; lra]|].
    apply (Rmult_le_reg_r (knot w (Datatypes.S k) - knot w k)); [lra|]. unfold Rdiv. rewrite Rmult_assoc, Rinv_l by lra. lra. }
  replace (height w k + (height w (Datatypes.S k) - height w k) * (x - knot w k) / (knot w (Datatypes.S k) - knot w k))
    with (height w k * (1 - t) + height w (Datatypes.S k) * t) by (unfold t; field; lra).
  pose proof (height_nonneg k). pose proof (height_nonneg (Datatypes.S k)).
  apply Rplus_le_le_0_compat; apply Rmult_le_pos; lra.
Qed.
Lemma line_le k x : (S k < n)%nat -> knot w k <= x <= knot w (S k) -> line k x <= Rmax (height w k) (height w (S k)).
Proof.
  intros Hk Hx. pose proof (knot_step k Hk) as S. unfold line. set (t := (x - knot w k) / (knot w (Datatypes.S k) - knot w k)).
  assert (0 <= t <= 1) as T.
  { unfold t. split; [apply Rmult_le_pos; [lra|left; apply Rinv_0_lt_compat; lra]|].
    apply (Rmult_le_reg_r (knot w (Datatypes.S k) - knot w k)); [lra|]. unfold Rdiv. rewrite Rmult_assoc, Rinv_l by lra. lra. }
  replace (height w k + (height w (Datatypes.S k) - height w k) * (x - knot w k) / (knot w (Datatypes.S k) - knot w k))
    with (height w k * (1 - t) + height w (Datatypes.S k) * t) by (unfold t; field; lra).
  pose proof (Rmax_l (height w k) (height w (Datatypes.S k))). pose proof (Rmax_r (height w k) (height w (Datatypes.S k))).
  set (m := Rmax _ _) in *. apply Rle_trans with (m * (1 - t) + m * t); [|lra].
  apply Rplus_le_compat; apply Rmult_le_compat_r; lra.
Qed.

Lemma interp_before M x : x <= knot w 0 -> interp_at M w x = 0.
Proof. intros H. unfold interp_at. rewrite (search_before x H), height_first. apply Rmax_left. lra. Qed.
Lemma interp_after M x : knot w (n - 1) <= x -> interp_at M w x = 0.
Proof.
  intros H. pose proof n2 as N2. destruct (Rle_lt_or_eq_dec _ _ H) as [L|E].
  - unfold interp_at. rewrite (search_after x L). destruct n as [|m] eqn:En; [lia|]. rewrite Nat.ltb_irrefl.
    rewrite <- En, height_last. destruct (Nat.eqb n M); apply Rmax_left; lra.
  - destruct n as [|[|m]] eqn:En; try lia. replace (S (S m) - 1)%nat with (S m) in * by lia.
    unfold interp_at. rewrite (search_in m x); [|lia|rewrite <- E; apply knot_step; lia|lra].
    rewrite En. replace (S m <? S (S m))%nat with true by (symmetry; apply Nat.ltb_lt; lia).
    unfold offset, slope. replace (height w (S m)) with 0 by (pose proof height_last as HL; rewrite En in HL; replace (S (S m) - 1)%nat with (S m) in HL by lia; now rewrite HL).
    rewrite <- E. pose proof (knot_step m ltac:(lia)). apply Rmax_right. apply Req_le. field. lra.
Qed.
Lemma interp_line M k x : (S k < n)%nat -> knot w k <= x <= knot w (S k) -> interp_at M w x = line k x.
Proof.
  intros Hk [H1 H2]. pose proof (knot_step k Hk) as St.
  destruct (Rle_lt_or_eq_dec _ _ H1) as [L|<-].
  - assert (line k x = slope w k * x + offset w k) as E by (unfold line, offset, slope; field; lra).
    unfold interp_at. rewrite (search_in k x Hk L H2). replace (S k <? n)%nat with true by (symmetry; now apply Nat.ltb_lt).
    rewrite <- E. apply Rmax_left. apply line_nonneg; [exact Hk|lra].
  - (* at the left knot *)
    assert (line k (knot w k) = height w k) as E0 by (unfold line; field; lra). rewrite E0.
    destruct k as [|k]; [rewrite interp_before by lra; now rewrite height_first|].
    pose proof (knot_step k ltac:(lia)) as St'.
    unfold interp_at. rewrite (search_in k (knot w (S k))) by (lia || lra).
    replace (S k <? n)%nat with true by (symmetry; apply Nat.ltb_lt; lia).
    replace (slope w k * knot w (S k) + offset w k) with (height w (S k)) by (unfold offset, slope; field; lra).
    apply Rmax_left. apply height_nonneg.
Qed.
Lemma find_piece x : knot w 0 <= x -> x < knot w (n - 1) -> exists k, (S k < n)%nat /\ knot w k <= x <= knot w (S k).
Proof.
  intros H1 H2. destruct (find_bin (knot w) (n - 1) x H1 H2) as (k & Hk & K). exists k. split; [lia|lra].
Qed.
Lemma interp_nonneg M x : 0 <= interp_at M w x. Proof. unfold interp_at. apply Rmax_r. Qed.

Lemma trapezoid_nonneg k : (S k < n)%nat -> 0 <= trapezoid w k.
Proof.
  intros Hk. unfold trapezoid. pose proof (knot_step k Hk). pose proof (height_nonneg k). pose proof (height_nonneg (S k)).
  apply Rmult_le_pos; lra.
Qed.
Lemma area_polygon : area w (n - 1) = polygon_area w.
Proof. apply bsum_ext. intros k Hk. unfold trapezoid, knot, height. field. Qed.
Lemma area_mono i j : (i <= j)%nat -> (j <= n - 1)%nat -> area w i <= area w j.
Proof.
  intros H Hj. induction j as [|j IH]; [replace i with 0%nat by lia; lra|].
  destruct (Nat.eq_dec i (S j)) as [->|N]; [lra|]. unfold area in *. cbn [bsum]. pose proof (trapezoid_nonneg j ltac:(lia)).
  specialize (IH ltac:(lia) ltac:(lia)). lra.
Qed.

Lemma line_RInt k a b : (S k < n)%nat ->
  is_RInt (line k) a b ((b - a) * (line k a + line k b) / 2).
Proof.
  intros Hk. pose proof (knot_step k Hk) as St.
  set (s := (height w (S k) - height w k) / (knot w (S k) - knot w k)).
  set (F := fun x : R => height w k * x + s * (x - knot w k) * (x - knot w k) / 2).
  assert (forall x, line k x = height w k + s * (x - knot w k)) as EL by (intros x; unfold line, s; field; lra).
  replace ((b - a) * (line k a + line k b) / 2) with (minus (F b) (F a)).
  2:{ rewrite !EL. unfold minus, plus, opp, F; cbn. field. }
  apply (is_RInt_derive (V := R_CompleteNormedModule) F (line k)).
  - intros x _. unfold F. auto_derive; [exact I|]. rewrite EL. field.
  - intros x _. unfold line. apply (ex_derive_continuous (V := R_NormedModule)). auto_derive. exact I.
Qed.
Lemma prefix_RInt M k : (k < n)%nat -> is_RInt (interp_at M w) (knot w 0) (knot w k) (area w k).
Proof.
  induction k as [|k IH]; intros Hk.
  - unfold area; cbn [bsum]. apply (is_RInt_point (V := R_NormedModule)).
  - unfold area; cbn [bsum]. change (bsum k (trapezoid w)) with (area w k).
    apply (is_RInt_Chasles (V := R_NormedModule) _ _ (knot w k) _ (area w k) (trapezoid w k)); [apply IH; lia|].
    pose proof (knot_step k ltac:(lia)) as St.
    apply (is_RInt_ext (line k)).
    + intros x Hx. rewrite Rmin_left, Rmax_right in Hx by lra. symmetry. apply interp_line; [lia|lra].
    + replace (trapezoid w k) with ((knot w (S k) - knot w k) * (line k (knot w k) + line k (knot w (S k))) / 2); [apply line_RInt; lia|].
      unfold trapezoid, line. field. lra.
Qed.
Lemma interp_sums M : sums DReal (interp_at M w) (polygon_area w).
Proof.
  pose proof n2. rewrite <- area_polygon. apply (sums_compact _ (knot w 0) (knot w (n - 1))).
  - apply knot_le; lia.
  - intros x [Hx|Hx]; [apply interp_before|apply interp_after]; lra.
  - apply prefix_RInt. lia.
Qed.

Lemma mode_index : (rargmax n (height w) < n)%nat. Proof. apply rargmax_lt. pose proof n2. lia. Qed.
Lemma interp_knot M k : (k < n)%nat -> interp_at M w (knot w k) = height w k.
Proof.
  intros Hk. destruct (Nat.eq_dec (S k) n) as [E|N].
  - replace k with (n - 1)%nat by lia. rewrite interp_after by lra. now rewrite height_last.
  - rewrite (interp_line M k) by (lia || (pose proof (knot_step k ltac:(lia)); lra)). unfold line. pose proof (knot_step k ltac:(lia)). field. lra.
Qed.
Lemma mode_max M x : interp_at M w x <= interp_at M w (p_mode w).
Proof.
  unfold p_mode. rewrite (interp_knot M _ mode_index). set (m := rargmax n (height w)).
  assert (forall j, (j < n)%nat -> height w j <= height w m) as MX.
  { intros j Hj. apply rargmax_max. exact Hj. }
  destruct (Rlt_dec x (knot w 0)) as [A|A]; [rewrite interp_before by lra; apply height_nonneg|].
  destruct (Rle_dec (knot w (n - 1)) x) as [B|B]; [rewrite interp_after by lra; apply height_nonneg|].
  destruct (find_piece x ltac:(lra) ltac:(lra)) as (k & Hk & K). rewrite (interp_line M k x Hk K).
  apply Rle_trans with (1 := line_le k x Hk K). apply Rmax_lub; apply MX; lia.
Qed.

Lemma reported M x : pr (p_log_prob M w x) = interp_at M w x + tiny.
Proof.
  unfold p_log_prob. cbn [pr]. pose proof (interp_nonneg M x). pose proof tiny_pos. rewrite Rmax_left; [apply exp_ln; lra|].
  apply Rle_trans with (ln tiny).
  - rewrite <- (ln_exp (-300)). assert (exp (-300) < tiny) as L.
    { replace (-300) with (-(300)) by lra. rewrite exp_Ropp. unfold tiny. apply Rinv_lt_contravar; [apply Rmult_lt_0_compat; [apply pow_lt; lra|apply exp_pos]|].
      replace 300 with (INR 300 * 1) by (rewrite INR_IZR_INZ; cbn; lra).
      assert (forall k, exp (INR k * 1) = exp 1 ^ k) as E.
      { induction k as [|k IH]; [cbn; rewrite Rmult_0_l; apply exp_0|]. rewrite S_INR. replace ((INR k + 1) * 1) with (INR k * 1 + 1) by ring.
        rewrite exp_plus, IH. cbn. ring. }
      rewrite E. apply Rlt_le_trans with (2 ^ 300).
      - rewrite (pow_IZR 10 10), (pow_IZR 2 300). apply IZR_lt. vm_compute. reflexivity.
      - apply pow_incr. split; [lra|]. pose proof (exp_ineq1 1 ltac:(lra)). lra. }
    left. apply ln_increasing; [apply exp_pos|exact L].
  - destruct (Rle_lt_or_eq_dec _ _ H) as [L|<-]; [left; apply ln_increasing; lra|rewrite Rplus_0_l; lra].
Qed.

(** ** sampling *)
Hypothesis A1 : 0 < polygon_area w.
Notation A := (area w (n - 1)).
Lemma A_pos : 0 < A. Proof. now rewrite area_polygon. Qed.
Lemma cdf_0 : cdf w 0 = 0. Proof. unfold cdf, area; cbn [bsum]. unfold Rdiv. ring. Qed.
Lemma cdf_mono i j : (i <= j)%nat -> (j <= n - 1)%nat -> cdf w i <= cdf w j.
Proof.
  intros H Hj. unfold cdf. apply Rmult_le_compat_r; [left; apply Rinv_0_lt_compat; pose proof A_pos; pose proof tiny_pos; lra|].
  now apply area_mono.
Qed.
Lemma cdf_lt1 k : (k <= n - 1)%nat -> cdf w k < 1.
Proof.
  intros Hk. pose proof A_pos. pose proof tiny_pos. apply Rle_lt_trans with (cdf w (n - 1)); [apply cdf_mono; lia|]. unfold cdf.
  apply (Rmult_lt_reg_r (A + tiny)); [lra|]. unfold Rdiv. rewrite Rmult_assoc, Rinv_l by lra. lra.
Qed.
Lemma nth_cdf k : (k < n)%nat -> nth k (map (cdf w) (seq 0 n)) 0 = cdf w k.
Proof.
  intros Hk. rewrite (nth_indep _ 0 (cdf w 0)) by (rewrite map_length, seq_length; exact Hk).
  rewrite map_nth, seq_nth by exact Hk. reflexivity.
Qed.
Lemma cdf_index k u : (S k < n)%nat -> cdf w k <= u -> u < cdf w (S k) -> search_right (map (cdf w) (seq 0 n)) u = S k.
Proof.
  intros Hk H1 H2. unfold search_right. apply (filter_prefix _ 0); [rewrite map_length, seq_length; lia| |].
  - intros j Hj. rewrite nth_cdf by lia. apply rle_spec. pose proof (cdf_mono j k ltac:(lia) ltac:(lia)). lra.
  - intros j Hj. rewrite map_length, seq_length in Hj. rewrite nth_cdf by lia. apply rle_false. pose proof (cdf_mono (S k) j ltac:(lia) ltac:(lia)). lra.
Qed.
Lemma cdf_index_last u : cdf w (n - 1) <= u -> search_right (map (cdf w) (seq 0 n)) u = n.
Proof.
  intros H. unfold search_right. apply (filter_prefix _ 0); [rewrite map_length, seq_length; lia| |rewrite map_length, seq_length; intros; lia].
  intros j Hj. rewrite nth_cdf by lia. apply rle_spec. pose proof (cdf_mono j (n - 1) ltac:(lia) ltac:(lia)). lra.
Qed.
Lemma eps8 : 0 < / 10 ^ 8. Proof. apply Rinv_0_lt_compat, pow_lt. lra. Qed.
Lemma inv_formula k u : (S k < n)%nat -> cdf w k <= u -> u < cdf w (S k) ->
  inv_cdf w u = knot w k + (knot w (S k) - knot w k) / (cdf w (S k) - cdf w k + / 10 ^ 8) * (u - cdf w k).
Proof.
  intros Hk H1 H2. unfold inv_cdf. rewrite (cdf_index k u Hk H1 H2).
  replace (Nat.max (Nat.min (S k) (n - 1)) 1) with (S k) by lia. replace (S k - 1)%nat with k by lia. reflexivity.
Qed.
Lemma inv_in k u : (S k < n)%nat -> cdf w k <= u -> u < cdf w (S k) -> knot w k <= inv_cdf w u < knot w (S k).
Proof.
  intros Hk H1 H2. rewrite (inv_formula k u Hk H1 H2). pose proof (knot_step k Hk). pose proof eps8.
  set (c := cdf w (S k) - cdf w k + / 10 ^ 8). assert (0 <= (u - cdf w k) / c < 1) as T.
  { split; [apply Rmult_le_pos; [lra|left; apply Rinv_0_lt_compat; unfold c; lra]|].
    apply (Rmult_lt_reg_r c); [unfold c; lra|]. unfold Rdiv. rewrite Rmult_assoc, Rinv_l by (unfold c; lra). unfold c. lra. }
  replace ((knot w (S k) - knot w k) / c * (u - cdf w k)) with ((knot w (S k) - knot w k) * ((u - cdf w k) / c)) by (field; unfold c; lra).
  set (t := (u - cdf w k) / c) in *. split; [assert (0 <= (knot w (S k) - knot w k) * t) by (apply Rmult_le_pos; lra); lra|].
  assert ((knot w (S k) - knot w k) * t < (knot w (S k) - knot w k) * 1) by (apply Rmult_lt_compat_l; lra). lra.
Qed.
Lemma inv_last u : cdf w (n - 1) <= u -> knot w (n - 2) <= inv_cdf w u.
Proof.
  intros H. pose proof n2. unfold inv_cdf. rewrite (cdf_index_last u H). replace (Nat.max (Nat.min n (n - 1)) 1) with (n - 1)%nat by lia.
  replace (n - 1 - 1)%nat with (n - 2)%nat by lia. pose proof (knot_lt (n - 2) (n - 1) ltac:(lia) ltac:(lia)). pose proof eps8.
  pose proof (cdf_mono (n - 2) (n - 1) ltac:(lia) ltac:(lia)).
  assert (0 <= (knot w (n - 1) - knot w (n - 2)) / (cdf w (n - 1) - cdf w (n - 2) + / 10 ^ 8) * (u - cdf w (n - 2))); [|lra].
  apply Rmult_le_pos; [|lra]. apply Rmult_le_pos; [lra|]. left. apply Rinv_0_lt_compat. lra.
Qed.
(** which piece a uniform number selects *)
Lemma inv_piece k u : (S (S k) < n)%nat -> 0 <= u -> (knot w k <= inv_cdf w u < knot w (S k) <-> cdf w k <= u < cdf w (S k)).
Proof.
  intros Hk Hu. split; [|intros [H1 H2]; apply inv_in; [lia|exact H1|exact H2]].
  intros [H1 H2]. destruct (Rle_dec (cdf w (n - 1)) u) as [L|L].
  - exfalso. pose proof (inv_last u L). pose proof (knot_le (S k) (n - 2) ltac:(lia) ltac:(lia)). lra.
  - destruct (find_bin (cdf w) (n - 1) u ltac:(rewrite cdf_0; lra) ltac:(lra)) as (j & Hj & J1 & J2).
    destruct (inv_in j u ltac:(lia) J1 J2) as [K1 K2]. assert (j = k) as ->; [|lra].
    destruct (lt_eq_lt_dec j k) as [[L1| E]|L1]; [|exact E|].
    + exfalso. pose proof (knot_le (S j) k ltac:(lia) ltac:(lia)). lra.
    + exfalso. pose proof (knot_le (S k) j ltac:(lia) ltac:(lia)). lra.
Qed.
End Entry.

Lemma unit_dens u : pr (l_lp unit_leaf 0 0 0 u) = if Rle_dec 0 u then (if Rlt_dec u 1 then 1 else 0) else 0.
Proof.
  change (l_lp unit_leaf 0 0 0 u) with (fam_lp (FUniform 0 1) u). rewrite uniform_dens by lra. unfold binb, edge; cbn [h_edges nth].
  destruct (Rle_dec 0 u); [destruct (Rlt_dec u 1)|]; lra.
Qed.
(** the uniform mass of an interval *)
Lemma unit_mass (b : R -> bool) l r : 0 <= l -> l <= r -> r <= 1 -> (forall u, 0 <= u < 1 -> l < u < r -> b u = true) ->
  (forall u, 0 <= u < 1 -> u < l \/ r < u -> b u = false) ->
  sums DReal (fun u => pr (l_lp unit_leaf 0 0 0 u) * (if b u then 1 else 0)) (r - l).
Proof.
  intros H0 H1 H2 Hin Hout. apply (sums_compact _ l r); [exact H1| |].
  - intros u Hu. rewrite unit_dens. destruct (Rle_dec 0 u); [destruct (Rlt_dec u 1)|]; try ring. rewrite Hout by lra. ring.
  - apply (is_RInt_ext (fun _ => 1)).
    + intros u Hu. rewrite Rmin_left, Rmax_right in Hu by lra. rewrite unit_dens. destruct (Rle_dec 0 u); [destruct (Rlt_dec u 1)|]; try lra.
      rewrite Hin by lra. symmetry. apply Rmult_1_l.
    + replace (r - l) with (scal (r - l) 1) by (unfold scal; cbn; unfold mult; cbn; ring). apply (is_RInt_const (V := R_NormedModule)).
Qed.
