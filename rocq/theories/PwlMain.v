(** Piecewise linear leaves: discrete features, initialize, log_likelihood. *)
From Coq Require Import List Arith ZArith Bool Reals Lra Lia.
From Coquelicot Require Import Coquelicot.
From Verif Require Import Base ScopeModel CircuitModel Integral LeafModel SampleModel SampleSpec CtxModel MleModel CtxProofs IvProofs HistModel HistSpec HistProofs HistEdges PwlModel PwlSpec PwlProofs PwlTop.
Import ListNotations.
Local Open Scope R_scope.

Lemma pair_sums (y : nat -> R) m : bsum m (fun k => y k + y (S k)) = 2 * bsum (S m) y - y 0%nat - y m.
Proof. induction m as [|m IH]; [cbn; ring|]. change (bsum (S m) (fun k => y k + y (S k))) with (bsum m (fun k => y k + y (S k)) + (y m + y (S m))). rewrite IH. cbn [bsum]. ring. Qed.
Lemma unit_area w : pw_ok w -> (forall k, (S k < nknots w)%nat -> knot w (S k) = knot w k + 1) ->
  polygon_area w = bsum (nknots w - 2) (fun k => height w (S k)).
Proof.
  intros OK U. pose proof (n2 w OK) as N2. unfold polygon_area.
  rewrite (bsum_ext (length (p_xs w) - 1) _ (fun k => / 2 * (height w k + height w (S k)))).
  - rewrite bsum_scal, pair_sums. change (length (p_xs w)) with (nknots w). rewrite (height_first w OK), (height_last w OK).
    replace (S (nknots w - 1)) with (S (S (nknots w - 2))) by lia. rewrite bsum_S_first. cbn [bsum].
    replace (S (nknots w - 2)) with (nknots w - 1)%nat by lia. rewrite (height_first w OK), (height_last w OK). lra.
  - intros k Hk. change (nth (S k) (p_xs w) 0) with (knot w (S k)). change (nth k (p_xs w) 0) with (knot w k).
    rewrite U by (unfold nknots; lia). unfold height. field.
Qed.

Section Discrete.
Variable vs : list R.
Hypothesis NE : vs <> [].
Hypothesis SO : sorted vs.
Notation V := (length vs).
Definition edges_of : list R := vs ++ [last vs 0 + 1].
Lemma V_pos : (0 < V)%nat. Proof. destruct vs; [congruence|cbn; lia]. Qed.
Lemma edges_len : length edges_of = S V. Proof. unfold edges_of. rewrite app_length. cbn. lia. Qed.
Lemma edges_nth k : (k < V)%nat -> nth k edges_of 0 = nth k vs 0. Proof. intros H. unfold edges_of. now rewrite app_nth1. Qed.
Lemma edges_end : nth V edges_of 0 = last vs 0 + 1. Proof. unfold edges_of. rewrite app_nth2, Nat.sub_diag by lia. reflexivity. Qed.
Lemma edges_sorted_d : sorted edges_of.
Proof.
  intros k Hk. rewrite edges_len in Hk. pose proof V_pos. rewrite (edges_nth k) by lia. destruct (Nat.eq_dec (S k) V) as [E|E].
  - rewrite E, edges_end, last_nth. replace (V - 1)%nat with k by lia. lra.
  - rewrite edges_nth by lia. apply SO. lia.
Qed.
Lemma E2 : (2 <= length edges_of)%nat. Proof. rewrite edges_len. pose proof V_pos. lia. Qed.
Notation xs := ((hd 0 vs - 1) :: vs ++ [last vs 0 + 1]).
Lemma hd_nth : hd 0 vs = nth 0 vs 0. Proof. now destruct vs. Qed.

Lemma frame_d ds : length ds = V -> (forall k, (k < V)%nat -> 0 <= nth k ds 0) -> (exists k, (k < V)%nat /\ 0 < nth k ds 0) ->
  let w := normalise xs (0 :: ds ++ [0]) in
  pw_ok w /\ polygon_area w = 1 /\ p_xs w = xs /\
  (exists Z, 0 < Z /\ forall k, (k < V)%nat -> height w (S k) = nth k ds 0 / Z) /\
  (unit_spaced vs -> forall k, (k < V)%nat -> height w (S k) = nth k ds 0 / bsum V (fun j => nth j ds 0)).
Proof.
  intros EL NN EX. pose proof (framed_ok (hd 0 vs - 1) vs (last vs 0 + 1) ds NE SO ltac:(lra) ltac:(lra) EL) as OK0.
  specialize (OK0 ltac:(rewrite EL; exact NN)).
  destruct (framed_fit (hd 0 vs - 1) vs (last vs 0 + 1) ds NE SO ltac:(lra) ltac:(lra) EL) as (W1 & W2 & W3 & Z & Z1 & Z2 & Z3).
  { rewrite EL. exact NN. } { rewrite EL. exact EX. }
  cbv zeta. split; [exact W1|]. split; [exact W2|]. split; [exact W3|]. split.
  - exists Z. split; [exact Z1|]. rewrite <- EL. exact Z3.
  - intros U k Hk. rewrite Z3 by lia. f_equal. rewrite Z2. rewrite (unit_area _ OK0).
    + unfold nknots. cbn [p_xs length]. rewrite app_length. cbn [length]. replace (S (V + 1) - 2)%nat with V by lia. apply bsum_ext.
      intros i Hi. unfold height. cbn [p_ys nth]. now rewrite app_nth1 by lia.
    + unfold nknots, knot. cbn [p_xs length]. rewrite app_length. cbn [length]. intros i Hi. rewrite !nth_mid. cbn [Nat.eqb].
      replace (S i - 1)%nat with i by lia. replace (Nat.eqb i (S V)) with false by (symmetry; apply Nat.eqb_neq; lia).
      destruct (Nat.eqb_spec i V) as [E|E].
      * destruct (Nat.eqb_spec i 0) as [E0|E0]; [pose proof V_pos; lia|]. rewrite last_nth, E. reflexivity.
      * destruct (Nat.eqb_spec i 0) as [->|E0]; [rewrite hd_nth; ring|]. replace i with (S (i - 1)) at 1 by lia. apply U. lia.
Qed.

Lemma disc_densities_nonneg l b : (b < V)%nat -> 0 <= nth b (densities edges_of l) 0.
Proof.
  intros Hb. apply (densities_nonneg edges_of E2 edges_sorted_d l). apply nth_In. rewrite densities_len, edges_len. lia.
Qed.
Lemma in_range_pos l x : In x l -> hd 0 vs <= x <= last vs 0 + 1 -> (0 < in_range edges_of l)%nat.
Proof.
  intros Hx H. destruct (bin_of edges_of E2 edges_sorted_d x) as (b & Hb & P).
  { rewrite edges_len. replace (S V - 1)%nat with V by lia. rewrite edges_nth by apply V_pos. rewrite edges_end, <- hd_nth. exact H. }
  assert (0 < count_in edges_of l b)%nat as C.
  { unfold count_in. fold (inb edges_of b). change (0 < length (filter (inb edges_of b) l))%nat.
    assert (In x (filter (inb edges_of b) l)) as I by (apply filter_In; split; [exact Hx|now apply inb_spec]).
    destruct (filter (inb edges_of b) l); [destruct I|cbn; lia]. }
  unfold in_range. assert (forall s m, (s <= b < s + m)%nat -> (0 < list_sum (map (count_in edges_of l) (seq s m)))%nat) as K.
  { intros s m. revert s. induction m as [|m IH]; intros s Hs; [lia|]. cbn [seq map]. unfold list_sum. cbn [fold_right].
    fold (list_sum (map (count_in edges_of l) (seq (S s) m))). destruct (Nat.eq_dec s b) as [->|N]; [lia|]. specialize (IH (S s) ltac:(lia)). lia. }
  apply K. lia.
Qed.

Lemma fit_discrete alpha l : 0 <= alpha -> (l = [] \/ exists x, In x l /\ hd 0 vs <= x <= last vs 0 + 1) -> exists w,
  fit_feature alpha (PDiscrete vs) l = Ok w /\ pw_ok w /\ polygon_area w = 1 /\ p_xs w = xs /\
  exists ds, length ds = V /\ (forall k, (k < V)%nat -> 0 <= nth k ds 0) /\ (exists k, (k < V)%nat /\ 0 < nth k ds 0) /\
    w = normalise xs (0 :: smooth alpha (length l) ds ++ [0]) /\
    (l = [] -> forall k, (k < V)%nat -> nth k ds 0 = 1 / INR V) /\ (l <> [] -> ds = densities edges_of l).
Proof.
  intros Ha H. pose proof V_pos as VP.
  assert (exists ds, length ds = V /\ (forall k, (k < V)%nat -> 0 <= nth k ds 0) /\ (exists k, (k < V)%nat /\ 0 < nth k ds 0) /\
    fit_feature alpha (PDiscrete vs) l = Ok (normalise xs (0 :: smooth alpha (length l) ds ++ [0])) /\
    (l = [] -> forall k, (k < V)%nat -> nth k ds 0 = 1 / INR V) /\ (l <> [] -> ds = densities edges_of l)) as (ds & D1 & D2 & D3 & D4 & D5 & D6).
  { destruct l as [|x0 l0].
    - exists (map (fun _ => 1 / INR V) vs). assert (0 < 1 / INR V) as P by (apply Rmult_lt_0_compat; [lra|now apply Rinv_0_lt_compat, lt_0_INR]).
      assert (forall k, (k < V)%nat -> nth k (map (fun _ => 1 / INR V) vs) 0 = 1 / INR V) as N.
      { intros k Hk. rewrite (nth_indep _ 0 ((fun _ => 1 / INR V) 0)) by (now rewrite map_length). now rewrite (map_nth (fun _ => 1 / INR V)). }
      split; [apply map_length|]. split; [intros k Hk; rewrite N by exact Hk; lra|]. split; [exists 0%nat; split; [exact VP|rewrite N by exact VP; exact P]|].
      split; [|split; [intros _; exact N|congruence]]. unfold fit_feature. destruct vs; [congruence|reflexivity].
    - destruct H as [H|(x & Hx & Hr)]; [congruence|]. pose proof (in_range_pos _ x Hx Hr) as IP. exists (densities edges_of (x0 :: l0)).
      split; [rewrite densities_len, edges_len; lia|]. split; [apply disc_densities_nonneg|]. split.
      + destruct (densities_some edges_of E2 edges_sorted_d (x0 :: l0) IP) as (b & Hb & P). rewrite edges_len in Hb. exists b. split; [lia|exact P].
      + split; [|split; [discriminate|reflexivity]]. unfold fit_feature. fold edges_of.
        replace (Nat.eqb (in_range edges_of (x0 :: l0)) 0) with false by (symmetry; apply Nat.eqb_neq; lia).
        destruct vs; [congruence|reflexivity]. }
  assert (forall d, In d ds -> 0 <= d) as DN.
  { intros d Hd. destruct (In_nth ds d 0 Hd) as (k & Hk & <-). apply D2. lia. }
  destruct (frame_d (smooth alpha (length l) ds)) as (W1 & W2 & W3 & _).
  { rewrite smooth_len; exact D1. } { intros k Hk. apply smooth_nonneg; [exact DN|lia]. }
  { destruct D3 as (k & Hk & P). exists k. split; [exact Hk|]. apply smooth_pos; [exact DN|lia|exact P]. }
  eexists. split; [exact D4|]. split; [exact W1|]. split; [exact W2|]. split; [exact W3|]. exists ds. do 4 (split; [assumption || reflexivity|]). split; assumption.
Qed.

(** data inside the domain *)
Lemma count_occ l b : (forall x, In x l -> In x vs) -> (b < V)%nat -> count_in edges_of l b = occurrences (nth b vs 0) l.
Proof.
  intros H Hb. unfold count_in, occurrences. apply f_equal. apply filter_ext_in. intros x Hx. change (inb edges_of b x = if Req_EM_T x (nth b vs 0) then true else false).
  destruct (In_nth vs x 0 (H x Hx)) as (j & Hj & Ej).
  assert (forall i, (i < V)%nat -> in_bin_of edges_of i (nth i vs 0)) as SELF.
  { intros i Hi. split; [rewrite edges_nth by exact Hi; lra|]. left. rewrite <- (edges_nth i Hi). apply edges_sorted_d. rewrite edges_len. lia. }
  destruct (Req_EM_T x (nth b vs 0)) as [E|E].
  - apply inb_spec. rewrite E. now apply SELF.
  - destruct (inb edges_of b x) eqn:EB; [|reflexivity]. exfalso. apply E. apply inb_spec in EB. rewrite <- Ej. f_equal.
    apply (bin_one edges_of E2 edges_sorted_d j b x); [rewrite edges_len; lia|rewrite edges_len; lia| |exact EB]. rewrite <- Ej. now apply SELF.
Qed.
Lemma in_range_dom l : (forall x, In x l -> In x vs) -> in_range edges_of l = length l.
Proof.
  intros H. apply (in_range_all edges_of E2 edges_sorted_d). intros x Hx. destruct (In_nth vs x 0 (H x Hx)) as (j & Hj & <-).
  rewrite <- (edges_nth j Hj). rewrite edges_len. split; apply (es_le edges_of E2 edges_sorted_d); rewrite ?edges_len; lia.
Qed.
Lemma list_sum_INR (f : nat -> nat) m : INR (list_sum (map f (seq 0 m))) = bsum m (fun k => INR (f k)).
Proof.
  induction m as [|m IH]; [reflexivity|]. rewrite seq_S, map_app, list_sum_app, plus_INR, IH. cbn [bsum map Nat.add]. unfold list_sum. cbn [fold_right]. now rewrite Nat.add_0_r.
Qed.
Lemma in_hull x : In x vs -> hd 0 vs <= x <= last vs 0 + 1.
Proof.
  intros H. pose proof V_pos as VP. destruct (In_nth vs x 0 H) as (j & Hj & <-). rewrite hd_nth, last_nth.
  assert (nth 0 vs 0 <= nth j vs 0) as A.
  { rewrite <- (edges_nth j Hj), <- (edges_nth 0 VP). apply (es_le edges_of E2 edges_sorted_d); [lia|rewrite edges_len; lia]. }
  assert (nth j vs 0 <= nth (V - 1) vs 0) as B.
  { rewrite <- (edges_nth j Hj), <- (edges_nth (V - 1)) by lia. apply (es_le edges_of E2 edges_sorted_d); [lia|rewrite edges_len; lia]. }
  lra.
Qed.
Lemma mass_discrete alpha l : 0 <= alpha -> unit_spaced vs -> l <> [] -> (forall x, In x l -> In x vs) -> exists w,
  fit_feature alpha (PDiscrete vs) l = Ok w /\ pw_ok w /\
  forall k, (k < V)%nat -> height w (S k) = (INR (occurrences (nth k vs 0) l) + alpha) / (INR (length l) + INR V * alpha).
Proof.
  intros Ha U NL IN. pose proof V_pos as VP.
  destruct (fit_discrete alpha l Ha) as (w & F1 & F2 & _ & _ & ds & D1 & D2 & D3 & D4 & _ & D6).
  { right. destruct l as [|x l0]; [congruence|]. exists x. split; [now left|]. apply in_hull, IN. now left. }
  exists w. split; [exact F1|]. split; [exact F2|]. specialize (D6 NL).
  assert (0 < length l)%nat as LP by (destruct l; [congruence|cbn; lia]). assert (0 < INR (length l)) as LR by now apply lt_0_INR.
  assert (0 < INR V) as VR by now apply lt_0_INR.
  assert (forall k, (k < V)%nat -> nth k ds 0 = INR (occurrences (nth k vs 0) l) / INR (length l)) as ED.
  { intros k Hk. rewrite D6, densities_nth by (rewrite edges_len; lia). rewrite in_range_dom, count_occ by assumption.
    replace (nth (S k) edges_of 0 - nth k edges_of 0) with 1; [f_equal; ring|]. rewrite (edges_nth k Hk). destruct (Nat.eq_dec (S k) V) as [E|E].
    - rewrite E, edges_end, last_nth. replace (V - 1)%nat with k by lia. ring.
    - rewrite edges_nth by lia. rewrite U by lia. ring. }
  assert (bsum V (fun k => INR (occurrences (nth k vs 0) l)) = INR (length l)) as ES.
  { rewrite <- (in_range_dom l IN). unfold in_range. rewrite edges_len. replace (S V - 1)%nat with V by lia. rewrite list_sum_INR. apply bsum_ext.
    intros k Hk. now rewrite count_occ. }
  set (ss := smooth alpha (length l) ds) in *.
  assert (forall k, (k < V)%nat -> nth k ss 0 = (INR (occurrences (nth k vs 0) l) + alpha) / (INR (length l) + INR V * alpha)) as ESS.
  { intros k Hk. unfold ss. rewrite smooth_nth by lia. rewrite ED, D1 by exact Hk. destruct (rlt 0 alpha) eqn:EA.
    - apply rlt_spec in EA. assert (0 < INR V * alpha) by now apply Rmult_lt_0_compat. field. split; lra.
    - apply rlt_false in EA. replace alpha with 0 by lra. field. lra. }
  assert (forall d, In d ds -> 0 <= d) as DN.
  { intros d Hd. destruct (In_nth ds d 0 Hd) as (k & Hk & <-). apply D2. lia. }
  destruct (frame_d ss) as (_ & _ & _ & _ & W).
  { unfold ss. rewrite smooth_len. exact D1. } { intros k Hk. unfold ss. apply smooth_nonneg; [exact DN|lia]. }
  { destruct D3 as (k & Hk & P). exists k. split; [exact Hk|]. apply smooth_pos; [exact DN|lia|exact P]. }
  intros k Hk. rewrite D4. rewrite (W U k Hk), ESS by exact Hk. replace (bsum V (fun j => nth j ss 0)) with 1; [field|].
  - assert (0 <= INR V * alpha) by (apply Rmult_le_pos; lra). lra.
  - rewrite (bsum_ext V _ (fun k => / (INR (length l) + INR V * alpha) * (INR (occurrences (nth k vs 0) l) + alpha))).
    + rewrite bsum_scal, bsum_plus, ES, bsum_const. assert (0 <= INR V * alpha) by (apply Rmult_le_pos; lra). field. lra.
    + intros j Hj. rewrite ESS by exact Hj. unfold Rdiv. ring.
Qed.

(** the density at the domain's values *)
Lemma value_height w M k : pw_ok w -> p_xs w = xs -> (k < V)%nat -> interp_at M w (nth k vs 0) = height w (S k).
Proof.
  intros OK EX Hk. rewrite <- (interp_knot w OK M (S k)).
  - unfold knot. rewrite EX. cbn [nth]. now rewrite app_nth1.
  - unfold nknots. rewrite EX. cbn [length]. rewrite app_length. cbn. lia.
Qed.
Lemma xs_nknots w : p_xs w = xs -> nknots w = S (S V).
Proof. intros E. unfold nknots. rewrite E. cbn [length]. rewrite app_length. cbn. lia. Qed.
Lemma values_sum w M (phi : R -> R) : pw_ok w -> p_xs w = xs ->
  lsumR (map (fun v => interp_at M w v * phi v) vs) = bsum V (fun k => height w (S k) * phi (nth k vs 0)).
Proof.
  intros OK EX. rewrite (lsumR_bsum (fun v => interp_at M w v * phi v) vs 0). apply bsum_ext. intros k Hk. now rewrite value_height.
Qed.
Lemma values_one w M : pw_ok w -> p_xs w = xs -> unit_spaced vs -> polygon_area w = 1 -> lsumR (map (interp_at M w) vs) = 1.
Proof.
  intros OK EX U A. rewrite (map_ext _ (fun v => interp_at M w v * (fun _ => 1) v)) by (intros; ring). rewrite (values_sum w M (fun _ => 1) OK EX).
  transitivity (polygon_area w); [|exact A]. rewrite (unit_area w OK).
  - rewrite (xs_nknots w EX). replace (S (S V) - 2)%nat with V by lia. apply bsum_ext. intros k0 Hk0. cbv beta. apply Rmult_1_r.
  - rewrite (xs_nknots w EX). unfold knot. rewrite EX. intros i Hi. rewrite !nth_mid. cbn [Nat.eqb].
    replace (S i - 1)%nat with i by lia. replace (Nat.eqb i (S V)) with false by (symmetry; apply Nat.eqb_neq; lia).
    destruct (Nat.eqb_spec i V) as [E|E].
    + destruct (Nat.eqb_spec i 0) as [E0|E0]; [pose proof V_pos; lia|]. rewrite last_nth, E. reflexivity.
    + destruct (Nat.eqb_spec i 0) as [->|E0]; [rewrite hd_nth; ring|]. replace i with (S (i - 1)) at 1 by lia. apply U. lia.
Qed.
End Discrete.
