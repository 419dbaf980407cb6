(** Lemmas about RDC. *)
From Coq Require Import List Arith Bool Reals Lia Lra Permutation.
From Verif Require Import Base CircuitModel PromModel RdcModel.
Import ListNotations.
Local Open Scope nat_scope.

Section Search.
  Variables (ok : nat -> bool) (K : nat).
  Hypothesis HK : 1 <= K.
  Record sinv (lb ub k : nat) : Prop := {
    v_lb : 1 <= lb; v_lk : lb <= k; v_ku : k <= ub; v_uK : ub <= K; v_mid : k = lb -> ub <= lb + 1; v_ok : lb = 1 \/ ok lb = true }.
  Definition meas (lb ub k : nat) : nat := 2 * (ub - lb) + (if Nat.eqb k lb then 1 else 0).

  Lemma half_bounds a b : a <= b -> a <= (b + a) / 2 <= b.
  Proof. intros H. split; [apply Nat.div_le_lower_bound; lia|apply Nat.div_le_upper_bound; lia]. Qed.
  Lemma half_eq a b : a <= b -> (b + a) / 2 = a -> b <= a + 1.
  Proof. intros H E. pose proof (Nat.div_mod (b + a) 2 ltac:(lia)). pose proof (Nat.mod_upper_bound (b + a) 2 ltac:(lia)). lia. Qed.

  Lemma search_spec : forall fuel lb ub k, sinv lb ub k -> meas lb ub k + 2 <= fuel ->
    match search fuel ok lb ub k with
    | At j => 1 <= j <= K /\ ok j = true /\
              (forall m, (forall i, 1 <= i <= K -> (ok i = true <-> i <= m)) -> lb <= m <= ub -> j = m)
    | Raises => ok 1 = false
    | OutOfFuel => False
    end.
  Proof.
    induction fuel as [|fuel IH]; intros lb ub k [I1 I2 I3 I4 I5 I6] HF; [lia|]. cbn [search].
    destruct (Nat.eqb_spec k 0) as [->|Nk]; [lia|]. destruct (ok k) eqn:EK; cbn [negb].
    - destruct (Nat.eqb_spec lb ub) as [->|NE].
      + assert (k = ub) as -> by lia. split; [lia|]. split; [exact EK|]. intros m HM Hm. lia.
      + destruct (Nat.eqb_spec ub (k + 1)) as [EU|NU].
        * (* k' = ub *) specialize (IH k ub ub). destruct (search fuel ok k ub ub) as [j| |].
          { assert (sinv k ub ub) as SI by (constructor; try lia; right; exact EK).
            destruct (IH SI) as (A & B & C); [unfold meas in *; destruct (Nat.eqb_spec ub k); destruct (Nat.eqb_spec k lb); lia|].
            split; [exact A|]. split; [exact B|]. intros m HM Hm. apply C; [exact HM|]. split; [apply HM; [lia|exact EK]|lia]. }
          { apply IH; [constructor; try lia; right; exact EK|unfold meas in *; destruct (Nat.eqb_spec ub k); destruct (Nat.eqb_spec k lb); lia]. }
          { apply IH; [constructor; try lia; right; exact EK|unfold meas in *; destruct (Nat.eqb_spec ub k); destruct (Nat.eqb_spec k lb); lia]. }
        * pose proof (half_bounds k ub I3) as HB. assert (KL : k <> lb) by (intros E; specialize (I5 E); lia).
          assert (SI : sinv k ub ((ub + k) / 2)) by (constructor; try lia; [intros E; now apply half_eq|right; exact EK]).
          assert (HM' : meas k ub ((ub + k) / 2) + 2 <= fuel).
          { unfold meas in *. destruct (Nat.eqb_spec k lb); [lia|]. destruct (Nat.eqb_spec ((ub + k) / 2) k); lia. }
          specialize (IH k ub ((ub + k) / 2) SI HM'). destruct (search fuel ok k ub ((ub + k) / 2)) as [j| |]; [|exact IH|exact IH].
          destruct IH as (A & B & C). split; [exact A|]. split; [exact B|]. intros m HM Hm. apply C; [exact HM|]. split; [apply HM; [lia|exact EK]|lia].
    - destruct (le_lt_dec lb (ub - 1)) as [LE|LT].
      + pose proof (half_bounds lb (ub - 1) LE) as HB.
        assert (SI : sinv lb (ub - 1) ((ub - 1 + lb) / 2)) by (constructor; try lia; [intros E; now apply half_eq|exact I6]).
        assert (HM' : meas lb (ub - 1) ((ub - 1 + lb) / 2) + 2 <= fuel).
        { unfold meas in *. destruct (Nat.eqb_spec ((ub - 1 + lb) / 2) lb), (Nat.eqb_spec k lb); lia. }
        specialize (IH lb (ub - 1) ((ub - 1 + lb) / 2) SI HM'). destruct (search fuel ok lb (ub - 1) ((ub - 1 + lb) / 2)) as [j| |]; [|exact IH|exact IH].
        destruct IH as (A & B & C). split; [exact A|]. split; [exact B|]. intros m HM Hm. apply C; [exact HM|]. split; [lia|].
        assert (~ k <= m) by (intros L; apply HM in L; [congruence|lia]). lia.
      + assert (lb = ub /\ k = ub) as [EL EQ] by lia. subst lb k. destruct I6 as [E1|E1]; [|congruence]. subst ub.
        destruct fuel as [|fuel]; [unfold meas in HF; cbn in HF; lia|]. cbn. exact EK.
  Qed.
  Lemma sinv0 : sinv 1 K K.
  Proof. constructor; lia. Qed.
End Search.

Lemma search_none ok : (forall j, 1 <= j -> ok j = false) -> forall fuel lb ub k j, search fuel ok lb ub k <> At j.
Proof.
  intros H. induction fuel as [|fuel IH]; intros lb ub k j; [discriminate|]. cbn [search].
  destruct (Nat.eqb_spec k 0); [discriminate|]. rewrite H by lia. cbn [negb]. apply IH.
Qed.

From Verif Require Import CltSpec CltPrim PromSpec PromGraph RdcSpec.
From Coq Require Import Relations.
(** ** Groups *)
Lemma existsb_eqb v l : existsb (Nat.eqb v) l = true <-> In v l.
Proof. rewrite existsb_exists. split; [intros (x & Hx & E); apply Nat.eqb_eq in E; now subst|intros H; exists v; split; [exact H|apply Nat.eqb_refl]]. Qed.
Lemma block_index_map (lab : nat -> nat) d v L : v < d ->
  block_index v (map (fun a => filter (fun w => Nat.eqb (lab w) a) (seq 0 d)) L) = index_of (lab v) L.
Proof.
  intros Hv. induction L as [|a L IH]; cbn [map block_index index_of]; [reflexivity|].
  destruct (existsb (Nat.eqb v) _) eqn:E.
  - apply existsb_eqb, filter_In in E. destruct E as [_ E]. apply Nat.eqb_eq in E. rewrite E, Nat.eqb_refl. reflexivity.
  - destruct (Nat.eqb_spec a (lab v)) as [EA|NA]; [|now rewrite IH].
    exfalso. assert (existsb (Nat.eqb v) (filter (fun w => Nat.eqb (lab w) a) (seq 0 d)) = true); [|congruence].
    apply existsb_eqb, filter_In. split; [apply in_seq; lia|]. apply Nat.eqb_eq. now symmetry.
Qed.
Lemma index_of_app_notin a l l' : ~ In a l -> index_of a (l ++ l') = length l + index_of a l'.
Proof.
  intros H. induction l as [|b l IH]; [reflexivity|]. cbn [app index_of length]. destruct (Nat.eqb_spec b a); [exfalso; apply H; now left|].
  rewrite IH; [reflexivity|]. intros K. apply H. now right.
Qed.
Definition leaders (lab : nat -> nat) (n : nat) : list nat := filter (fun v => Nat.eqb (lab v) v) (seq 0 n).
Lemma leaders_index lab d a : a < d -> lab a = a -> index_of a (leaders lab d) = length (leaders lab a).
Proof.
  intros Ha E. unfold leaders. replace d with (a + S (d - a - 1)) by lia. rewrite seq_app, filter_app. cbn [Nat.add seq filter]. rewrite E, Nat.eqb_refl.
  rewrite index_of_app_notin; [cbn [index_of]; rewrite Nat.eqb_refl; lia|]. intros K. apply filter_In in K. destruct K as [K _]. apply in_seq in K. lia.
Qed.
Lemma leaders_S lab a : length (leaders lab (S a)) = length (leaders lab a) + (if Nat.eqb (lab a) a then 1 else 0).
Proof. unfold leaders. rewrite seq_S, filter_app, app_length. cbn [Nat.add filter]. destruct (Nat.eqb (lab a) a); reflexivity. Qed.
Lemma leaders_pred lab a n : length (leaders lab a) = S n -> exists b, b < a /\ lab b = b /\ length (leaders lab b) = n.
Proof.
  induction a as [|a IH]; [discriminate|]. rewrite leaders_S. destruct (Nat.eqb_spec (lab a) a) as [E|N].
  - intros H. exists a. split; [lia|]. split; [exact E|lia].
  - intros H. destruct IH as (b & A & B & C); [lia|]. exists b. split; [lia|now split].
Qed.
Lemma leaders_mono lab a b : a <= b -> length (leaders lab a) <= length (leaders lab b).
Proof. induction 1 as [|b _ IH]; [lia|]. rewrite leaders_S. lia. Qed.
Lemma leaders_inj lab a b : lab a = a -> lab b = b -> length (leaders lab a) = length (leaders lab b) -> a = b.
Proof.
  intros A B E. destruct (lt_eq_lt_dec a b) as [[H| ->]|H]; [|reflexivity|].
  - pose proof (leaders_mono lab (S a) b H). pose proof (leaders_S lab a) as Q. rewrite A, Nat.eqb_refl in Q. lia.
  - pose proof (leaders_mono lab (S b) a H). pose proof (leaders_S lab b) as Q. rewrite B, Nat.eqb_refl in Q. lia.
Qed.

Section Ids.
  Variables (d : nat) (t : R) (r : nat -> nat -> R).
  Let E := rdc_edges d t r.
  Lemma ids_length : length (partition_ids d t r) = d.
  Proof. unfold partition_ids. now rewrite map_length, seq_length. Qed.
  Lemma ids_nth v : v < d -> nth v (partition_ids d t r) 0 = S (length (leaders (labels E) (labels E v))).
  Proof.
    intros Hv. unfold partition_ids. rewrite nth_indep with (d' := (fun v => S (block_index v (comps d (rdc_edges d t r)))) 0) by (rewrite map_length, seq_length; exact Hv).
    rewrite (map_nth (fun v => S (block_index v (comps d (rdc_edges d t r))))), seq_nth by exact Hv. cbn [Nat.add]. f_equal. unfold comps. rewrite block_index_map by exact Hv.
    apply leaders_index; [pose proof (labels_le E v); unfold E in *; lia|apply labels_idem].
  Qed.
  Lemma ids_same u v : u < d -> v < d -> (nth u (partition_ids d t r) 0 = nth v (partition_ids d t r) 0 <-> linked E u v).
  Proof.
    intros Hu Hv. rewrite !ids_nth by assumption. rewrite <- labels_linked. split; [|now intros ->].
    intros H. injection H as H. apply leaders_inj in H; [exact H|apply labels_idem|apply labels_idem].
  Qed.
  Lemma ids_growth v : v < d -> 1 <= nth v (partition_ids d t r) 0 /\
    (nth v (partition_ids d t r) 0 = 1 \/ exists u, u < v /\ S (nth u (partition_ids d t r) 0) = nth v (partition_ids d t r) 0).
  Proof.
    intros Hv. rewrite ids_nth by exact Hv. split; [lia|].
    destruct (length (leaders (labels E) (labels E v))) as [|n] eqn:EL; [now left|right].
    destruct (leaders_pred _ _ _ EL) as (b & A & B & C). pose proof (labels_le E v). exists b. split; [lia|]. rewrite ids_nth by lia. rewrite B, C. reflexivity.
  Qed.
  Lemma edge_in u v : In (u, v) E <-> u < v < d /\ (t <= r u v)%R /\ r u v <> 0%R.
  Proof.
    unfold E, rdc_edges. rewrite filter_In, in_prod_iff, !in_seq. cbn [fst snd]. rewrite andb_true_iff, Nat.ltb_lt. unfold entry.
    split.
    - intros (Hr & Hlt & H). rewrite Nat.min_l, Nat.max_r in H by lia. cbv zeta in H. unfold rlt in H. destruct (Rlt_dec (r u v) t) as [L|L].
      + destruct (Req_EM_T 0 0); [discriminate|congruence].
      + destruct (Req_EM_T (r u v) 0); [discriminate|]. split; [lia|]. split; [now apply Rnot_lt_le|assumption].
    - intros (Hr & L & N). split; [lia|]. split; [lia|]. rewrite Nat.min_l, Nat.max_r by lia. cbv zeta. unfold rlt. destruct (Rlt_dec (r u v) t); [exfalso; lra|].
      destruct (Req_EM_T (r u v) 0); [contradiction|reflexivity].
  Qed.
End Ids.

Lemma linked_rst (P : nat -> nat -> Prop) E : (forall u v, In (u, v) E <-> P u v) -> forall u v, linked E u v <-> clos_refl_sym_trans nat P u v.
Proof.
  intros H u v. split.
  - induction 1 as [|u v w _ IH [S1|S1]]; [apply rst_refl|eapply rst_trans; [exact IH|apply rst_step, H, S1]|eapply rst_trans; [exact IH|apply rst_sym, rst_step, H, S1]].
  - induction 1 as [u v S1|u|u v _ IH|u v w _ IH1 _ IH2]; [eapply l_step; [apply l_refl|left; now apply H]|apply l_refl|now apply linked_sym|eapply linked_trans; eassumption].
Qed.

(** ** Ranks *)
Lemma index_of_nth l k : NoDup l -> k < length l -> index_of (nth k l 0) l = k.
Proof.
  revert k. induction l as [|a l IH]; intros k ND Hk; [cbn in Hk; lia|]. inversion ND as [|? ? NI ND']; subst. destruct k; cbn [nth index_of].
  - now rewrite Nat.eqb_refl.
  - cbn in Hk. destruct (Nat.eqb_spec a (nth k l 0)) as [EA|_]; [exfalso; apply NI; rewrite EA; apply nth_In; lia|]. f_equal. apply IH; [assumption|lia].
Qed.
Lemma index_of_lt l i : In i l -> index_of i l < length l.
Proof.
  induction l as [|a l IH]; [easy|]. intros H. cbn [index_of length]. destruct (Nat.eqb_spec a i); [lia|]. destruct H as [H|H]; [contradiction|]. specialize (IH H). lia.
Qed.
Lemma nth_index_of l i : In i l -> nth (index_of i l) l 0 = i.
Proof.
  induction l as [|a l IH]; [easy|]. intros H. cbn [index_of]. destruct (Nat.eqb_spec a i); [assumption|]. destruct H as [H|H]; [contradiction|]. now apply IH.
Qed.

Section Ranks.
  Variable argsort : list R -> list nat.
  Hypothesis HS : sorts argsort.
  Variable x : list R.
  Let n := length x.
  Let p i := index_of i (argsort x).
  Lemma as_len : length (argsort x) = n.
  Proof. destruct (HS x) as [P _]. apply Permutation_length in P. now rewrite seq_length in P. Qed.
  Lemma as_nodup : NoDup (argsort x).
  Proof. destruct (HS x) as [P _]. eapply Permutation_NoDup; [apply Permutation_sym, P|apply seq_NoDup]. Qed.
  Lemma as_in i : In i (argsort x) <-> i < n.
  Proof. destruct (HS x) as [P _]. split; intros H; [apply (Permutation_in _ P), in_seq in H; lia|apply (Permutation_in _ (Permutation_sym P)), in_seq; unfold n in H; lia]. Qed.
  Lemma pos_lt i : i < n -> p i < n.
  Proof. intros H. rewrite <- as_len. apply index_of_lt. now apply as_in. Qed.
  Lemma pos_inj i j : i < n -> j < n -> p i = p j -> i = j.
  Proof. intros Hi Hj H. unfold p in H. rewrite <- (nth_index_of (argsort x) i), <- (nth_index_of (argsort x) j) by now apply as_in. now rewrite H. Qed.
  Lemma pos_mono i j : i < n -> j < n -> (nth i x 0 < nth j x 0)%R -> p i < p j.
  Proof.
    intros Hi Hj H. destruct (lt_eq_lt_dec (p i) (p j)) as [[L|E]|L]; [exact L| |].
    - apply pos_inj in E; [subst; lra|assumption|assumption].
    - exfalso. destruct (HS x) as [_ S0]. specialize (S0 (p j) (p i) L (pos_lt i Hi)). unfold p in S0. rewrite !nth_index_of in S0 by now apply as_in. lra.
  Qed.
  Lemma ranks_nth i : i < n -> nth i (ranks argsort x) 0%R = INR (S (p i)).
  Proof.
    intros Hi. unfold ranks. rewrite nth_indep with (d' := (fun i => INR (S (index_of i (argsort x)))) 0%nat) by (rewrite map_length, seq_length; exact Hi).
    rewrite (map_nth (fun i => INR (S (index_of i (argsort x))))), seq_nth by exact Hi. reflexivity.
  Qed.
  Lemma ranks_perm : Permutation (ranks argsort x) (map INR (seq 1 n)).
  Proof.
    assert (ranks argsort x = map INR (map S (map p (seq 0 n)))) as -> by (unfold ranks; rewrite !map_map; reflexivity). apply Permutation_map. rewrite <- seq_shift. apply Permutation_map.
    apply NoDup_Permutation_bis.
    - assert (NoDup (seq 0 n)) as ND by apply seq_NoDup. assert (forall i, In i (seq 0 n) -> i < n) as HL by (intros i H; apply in_seq in H; lia). revert ND HL. induction (seq 0 n) as [|a l IH]; intros ND HL; [constructor|]. inversion ND as [|? ? NI ND']; subst.
      cbn [map]. constructor; [|apply IH; [assumption|intros; apply HL; now right]]. intros K. apply in_map_iff in K. destruct K as (b & E & Hb). apply pos_inj in E; [subst; contradiction|apply HL; now right|apply HL; now left].
    - rewrite map_length, !seq_length. lia.
    - intros k Hk. apply in_map_iff in Hk. destruct Hk as (i & <- & Hi). apply in_seq in Hi. apply in_seq. pose proof (pos_lt i). lia.
  Qed.
  (** the number of smaller values, for distinct values *)
  Lemma filter_nth_len (f : R -> bool) : length (filter f x) = length (filter (fun i => f (nth i x 0%R)) (seq 0 n)).
  Proof.
    unfold n. induction x as [|a l IH] using rev_ind; [reflexivity|]. rewrite app_length. cbn [length]. rewrite Nat.add_1_r, seq_S, !filter_app, !app_length. f_equal.
    - rewrite IH. f_equal. apply filter_ext_in. intros i Hi. apply in_seq in Hi. now rewrite app_nth1 by lia.
    - cbn [Nat.add filter]. rewrite app_nth2, Nat.sub_diag by lia. cbn [nth]. destruct (f a); reflexivity.
  Qed.
  Lemma filter_perm_len (f : nat -> bool) l l' : Permutation l l' -> length (filter f l) = length (filter f l').
  Proof. induction 1 as [|a l l' _ IH|a b l|l l' l'' _ IH _ IH']; cbn [filter]; [reflexivity|destruct (f a); cbn [length]; now rewrite IH|destruct (f a), (f b); reflexivity|now rewrite IH]. Qed.
  Lemma filter_prefix_len (f : nat -> bool) (l : list nat) k : k <= length l -> (forall i, i < length l -> (f (nth i l 0) = true <-> i < k)) -> length (filter f l) = k.
  Proof.
    revert k. induction l as [|a l IH]; intros k Hk H; [cbn in *; lia|]. cbn [filter]. destruct k.
    - destruct (f a) eqn:E; [apply (H 0) in E; [lia|cbn; lia]|]. apply IH; [lia|]. intros i Hi. rewrite (H (S i)) by (cbn; lia). split; lia.
    - assert (f a = true) as -> by (apply (H 0); [cbn; lia|lia]). cbn [length]. f_equal. cbn in Hk. apply IH; [lia|]. intros i Hi. rewrite (H (S i)) by (cbn; lia). split; lia.
  Qed.
  Lemma ranks_smaller i : NoDup x -> i < n -> nth i (ranks argsort x) 0%R = INR (S (smaller x (nth i x 0%R))).
  Proof.
    intros ND Hi. rewrite ranks_nth by exact Hi. do 2 f_equal. unfold smaller. rewrite filter_nth_len.
    destruct (HS x) as [P _]. fold n in P. rewrite <- (filter_perm_len _ _ _ P). symmetry. apply filter_prefix_len; [rewrite as_len; pose proof (pos_lt i Hi); lia|].
    intros j Hj. rewrite as_len in Hj. assert (Hn : nth j (argsort x) 0 < n) by (apply as_in, nth_In; now rewrite as_len).
    assert (EJ : p (nth j (argsort x) 0) = j) by (unfold p; apply index_of_nth; [apply as_nodup|now rewrite as_len]).
    destruct (Rlt_dec _ _) as [L|L].
    - split; [intros _|reflexivity]. apply pos_mono in L; [now rewrite EJ in L|assumption|assumption].
    - split; [discriminate|]. intros K. exfalso. apply L. clear L. destruct (Rtotal_order (nth (nth j (argsort x) 0) x 0%R) (nth i x 0%R)) as [L|[E|L]]; [exact L| |].
      + exfalso. assert (nth j (argsort x) 0 = i) as E2 by (apply (proj1 (NoDup_nth x 0%R) ND); assumption). rewrite E2 in EJ. lia.
      + apply pos_mono in L; [rewrite EJ in L; lia|assumption|assumption].
  Qed.
End Ranks.

Lemma smaller_map g x v : increasing g -> smaller (map g x) (g v) = smaller x v.
Proof.
  intros HG. unfold smaller. induction x as [|a l IH]; [reflexivity|]. cbn [map filter].
  destruct (Rlt_dec (g a) (g v)) as [L|L], (Rlt_dec a v) as [L'|L']; cbn [length]; [now rewrite IH| | |exact IH].
  - exfalso. destruct (Rtotal_order a v) as [?|[->|Q]]; [contradiction|lra|]. apply HG in Q. lra.
  - exfalso. apply L. now apply HG.
Qed.
Lemma increasing_nodup g x : increasing g -> NoDup x -> NoDup (map g x).
Proof.
  intros HG. induction 1 as [|a l NI _ IH]; cbn [map]; constructor; [|exact IH]. intros K. apply in_map_iff in K. destruct K as (b & E & Hb).
  assert (a = b); [|now subst]. destruct (Rtotal_order a b) as [L|[?|L]]; [apply HG in L; lra|assumption|apply HG in L; lra].
Qed.
Lemma ranks_invariant argsort argsort' g x : sorts argsort -> sorts argsort' -> increasing g -> NoDup x -> ranks argsort (map g x) = ranks argsort' x.
Proof.
  intros H1 H2 HG ND. apply nth_ext with (d := 0%R) (d' := 0%R); [unfold ranks; rewrite !map_length, !seq_length; reflexivity|].
  intros i Hi. unfold ranks in Hi. rewrite !map_length, seq_length in Hi.
  rewrite ranks_smaller; [|assumption|now apply increasing_nodup|now rewrite map_length]. rewrite ranks_smaller by assumption.
  rewrite nth_indep with (d' := g 0%R) by (now rewrite map_length). rewrite map_nth, smaller_map by assumption. reflexivity.
Qed.
