(** Proofs about Factorize: the groups of every repetition partition the features. *)
From Coq Require Import List Arith Bool Reals Lia Lra Permutation.
From Verif Require Import Base ScopeModel ScopeProofs CircuitModel SampleModel SampleSpec SampleExp FactorModel.
Import ListNotations.
Local Open Scope nat_scope.

Lemma firstn_skipn_add {A} (l : list A) a b : a <= b -> firstn (b - a) (skipn a l) ++ skipn b l = skipn a l.
Proof.
  intros H. rewrite <- (firstn_skipn (b - a) (skipn a l)) at 2. f_equal.
  revert b l H. induction a as [|a IH]; intros b l H.
  - cbn. now rewrite Nat.sub_0_r.
  - destruct b as [|b]; [lia|]. destruct l as [|x l]; [now rewrite !skipn_nil|]. cbn [skipn Nat.sub]. apply IH. lia.
Qed.

Lemma groups_from_spec nf G idxs : length idxs = nf -> forall sizes offset o,
  offset + list_sum sizes = nf -> o + length sizes = G ->
  concat (groups_from nf G idxs offset o sizes) = skipn offset idxs /\
  map (@length nat) (groups_from nf G idxs offset o sizes) = sizes.
Proof.
  intros HL. induction sizes as [|k rest IH]; intros offset o Hs Ho.
  - cbn in *. split; [|reflexivity]. symmetry. apply skipn_all2. lia.
  - cbn [groups_from list_sum fold_right length] in *. change (fold_right Nat.add 0 rest) with (list_sum rest) in Hs.
    assert (Hh : (if Nat.eqb o (G - 1) then nf else offset + k) = offset + k).
    { destruct (Nat.eqb_spec o (G - 1)) as [E|E]; [|reflexivity].
      destruct rest as [|? ?]; cbn in *; lia. }
    rewrite Hh. destruct (IH (offset + k) (S o) ltac:(lia) ltac:(lia)) as [A B].
    cbn [concat map]. rewrite A, B. split.
    + apply firstn_skipn_add. lia.
    + f_equal. rewrite firstn_length, skipn_length. lia.
Qed.

Lemma base_sum nf G : (0 < G) -> list_sum (base_sizes nf G) = nf.
Proof.
  intros HG. unfold base_sizes. set (c := nf / G). set (rest := nf - c * G).
  assert (H1 : nf = c * G + rest).
  { unfold rest. assert (c * G <= nf) by (unfold c; rewrite Nat.mul_comm; apply Nat.mul_div_le; lia). lia. }
  assert (H2 : rest < G).
  { unfold rest, c. pose proof (Nat.mod_upper_bound nf G ltac:(lia)). pose proof (Nat.div_mod nf G ltac:(lia)). nia. }
  assert (K : forall n, list_sum (map (fun i => if Nat.ltb i rest then S c else c) (seq 0 n)) = c * n + min n rest).
  { induction n as [|n IH]; [cbn; lia|]. rewrite seq_S, map_app, list_sum_app, IH. cbn [map list_sum fold_right plus].
    destruct (Nat.ltb_spec n rest); lia. }
  rewrite K. lia.
Qed.

Lemma base_length nf G : length (base_sizes nf G) = G.
Proof. unfold base_sizes. now rewrite map_length, seq_length. Qed.

Lemma base_In nf G k : In k (base_sizes nf G) -> k = nf / G \/ k = S (nf / G).
Proof. unfold base_sizes. rewrite in_map_iff. intros (i & <- & _). destruct (Nat.ltb _ _); auto. Qed.

Lemma perm_list_sum a b : Permutation a b -> list_sum a = list_sum b.
Proof. induction 1; unfold list_sum in *; cbn [fold_right]; lia. Qed.

Section Good.
Variables (nf nin ch depth reps : nat) (sizes : list nat) (perms : nat -> list nat) (m : fact).
Hypothesis Hs : Permutation sizes (base_sizes nf (2 ^ depth)).
Hypothesis Hp : forall r, Permutation (perms r) (seq 0 nf).
Hypothesis Hm : mk_factorize nf nin ch depth reps sizes perms = Ok m.

Let G := 2 ^ depth.
Let gs r := groups nf G sizes (perms r).

Lemma G_pos : 0 < G.
Proof. unfold G. pose proof (Nat.pow_nonzero 2 depth). lia. Qed.
Lemma m_is : m = mkFact nf nin ch depth reps (fun r i o => entry (gs r) i o) /\ G <= nf.
Proof.
  unfold mk_factorize in Hm. fold G in Hm. destruct (Nat.ltb_spec nf G); [discriminate|].
  injection Hm as <-. split; [reflexivity|assumption].
Qed.
Lemma gs_spec r : concat (gs r) = perms r /\ map (@length nat) (gs r) = sizes.
Proof.
  unfold gs, groups. destruct (groups_from_spec nf G (perms r)) with (sizes := sizes) (offset := 0) (o := 0) as [A B].
  - rewrite (Permutation_length (Hp r)). apply seq_length.
  - rewrite (perm_list_sum _ _ Hs), base_sum; [reflexivity|apply G_pos].
  - cbn. rewrite (Permutation_length Hs). apply base_length.
  - cbn [skipn] in A. now split.
Qed.
Lemma gs_len r : length (gs r) = G.
Proof.
  destruct (gs_spec r) as [_ B]. rewrite <- (map_length (@length nat)), B, (Permutation_length Hs). apply base_length.
Qed.
Lemma mat_In r i o : fc_mat m r i o = true <-> In i (nth o (gs r) []).
Proof. destruct m_is as [-> _]. cbn [fc_mat]. unfold entry. apply memb_In. Qed.

Lemma concat_unique (ls : list (list nat)) i : NoDup (concat ls) -> forall o o', In i (nth o ls []) -> In i (nth o' ls []) -> o = o'.
Proof.
  induction ls as [|l ls IH]; intros ND o o' H H'; [destruct o; contradiction|].
  cbn [concat] in ND.
  assert (K : forall k, In i l -> In i (nth k ls []) -> False).
  { clear -ND. intros k A B. revert ND A. induction l as [|a l IHl]; cbn; [tauto|].
    intros ND A. inversion ND as [|? ? N ND']; subst. destruct A as [-> |A]; [|exact (IHl ND' A)].
    apply N, in_or_app. right. apply in_concat. exists (nth k ls []). split; [|assumption].
    destruct (Nat.lt_ge_cases k (length ls)); [now apply nth_In|]. now rewrite nth_overflow in B. }
  destruct o as [|o], o' as [|o']; cbn in H, H'; [reflexivity|exfalso; eauto|exfalso; eauto|f_equal].
  apply IH; [|assumption..]. clear -ND. induction l as [|a l IHl]; [exact ND|]. cbn in ND. inversion ND; auto.
Qed.

Lemma owner_exists r i : i < nf -> exists o, o < G /\ fc_mat m r i o = true.
Proof.
  intros Hi. assert (In i (concat (gs r))) as K.
  { destruct (gs_spec r) as [-> _]. apply (Permutation_in _ (Permutation_sym (Hp r))). apply in_seq. lia. }
  apply in_concat in K. destruct K as (l & Hl & K). destruct (In_nth _ _ [] Hl) as (o & Ho & E).
  exists o. rewrite gs_len in Ho. split; [exact Ho|]. apply mat_In. now rewrite E.
Qed.
Lemma owner_unique r i o o' : fc_mat m r i o = true -> fc_mat m r i o' = true -> o = o'.
Proof.
  rewrite !mat_In. apply concat_unique. destruct (gs_spec r) as [-> _].
  apply (Permutation_NoDup (Permutation_sym (Hp r))), seq_NoDup.
Qed.
Lemma mat_lt r i o : fc_mat m r i o = true -> i < nf /\ o < G.
Proof.
  rewrite mat_In. intros K. assert (o < length (gs r)) as Ho.
  { destruct (Nat.lt_ge_cases o (length (gs r))); [assumption|]. now rewrite nth_overflow in K. }
  split; [|now rewrite gs_len in Ho].
  assert (In i (concat (gs r))) as Q by (apply in_concat; exists (nth o (gs r) []); split; [now apply nth_In|exact K]).
  destruct (gs_spec r) as [E _]. rewrite E in Q. apply (Permutation_in _ (Hp r)) in Q. apply in_seq in Q. lia.
Qed.

Lemma concat_part_NoDup (ls : list (list nat)) o : NoDup (concat ls) -> NoDup (nth o ls []).
Proof.
  revert o. induction ls as [|l ls IH]; intros o ND; [destruct o; constructor|]. cbn [concat] in ND.
  destruct o as [|o]; cbn.
  - clear IH. induction l as [|a l IHl]; [constructor|]. cbn in ND. inversion ND as [|? ? N ND']; subst.
    constructor; [intros A; apply N, in_or_app; now left|auto].
  - apply IH. clear -ND. induction l as [|a l IHl]; [exact ND|]. cbn in ND. inversion ND; auto.
Qed.

Lemma members_perm r o : Permutation (filter (fun i => fc_mat m r i o) (seq 0 nf)) (nth o (gs r) []).
Proof.
  apply NoDup_Permutation.
  - apply NoDup_filter, seq_NoDup.
  - apply concat_part_NoDup. destruct (gs_spec r) as [-> _]. apply (Permutation_NoDup (Permutation_sym (Hp r))), seq_NoDup.
  - intros i. rewrite filter_In, in_seq, mat_In. split; [tauto|]. intros H. split; [|exact H].
    apply mat_In in H. apply mat_lt in H. lia.
Qed.

Lemma group_size r o : o < G ->
  let n := length (filter (fun i => fc_mat m r i o) (seq 0 nf)) in 1 <= n /\ nf / G <= n <= nf / G + 1.
Proof.
  intros Ho. cbn zeta. rewrite (Permutation_length (members_perm r o)).
  destruct (gs_spec r) as [_ B].
  assert (E : length (nth o (gs r) []) = nth o sizes 0) by (pose proof (map_nth (@length nat) (gs r) [] o) as M; rewrite B in M; symmetry; exact M).
  rewrite E.
  assert (In (nth o sizes 0) (base_sizes nf G)) as K.
  { apply (Permutation_in _ Hs), nth_In. rewrite (Permutation_length Hs), base_length. exact Ho. }
  apply base_In in K. destruct m_is as [_ Hle].
  assert (1 <= nf / G) by (apply Nat.div_le_lower_bound; pose proof G_pos; lia). lia.
Qed.

(** *** scopes *)
Lemma scopes_ok f2s r o : length f2s = nf -> Forall valid f2s -> o < G ->
  exists s, fact_scopes m f2s r o = Ok s /\ valid s /\
    forall v, In v (query s) <-> exists i, i < nf /\ fc_mat m r i o = true /\ In v (query (nth i f2s (mkScope [] []))).
Proof.
  intros HL HV Ho. unfold fact_scopes. destruct m_is as [Em _].
  assert (fc_nf m = nf) as -> by now rewrite Em. rewrite HL, Nat.eqb_refl. cbn [negb].
  destruct (join_all_ok (map (fun i => nth i f2s (mkScope [] [])) (filter (fun i => fc_mat m r i o) (seq 0 nf)))) as (s & E & V & Q & _).
  - pose proof (group_size r o Ho) as K. cbn zeta in K. intros N. apply map_eq_nil in N. rewrite N in K. cbn in K. lia.
  - apply Forall_forall. intros s Hin. apply in_map_iff in Hin. destruct Hin as (i & <- & Hi).
    apply filter_In in Hi. destruct Hi as [Hi _]. apply in_seq in Hi. rewrite Forall_forall in HV. apply HV, nth_In. lia.
  - exists s. split; [exact E|]. split; [exact V|]. intros v. rewrite Q. split.
    + intros (t & Ht & Hv). apply in_map_iff in Ht. destruct Ht as (i & <- & Hi). apply filter_In in Hi.
      destruct Hi as [Hi Hm']. apply in_seq in Hi. exists i. repeat split; [lia|assumption..].
    + intros (i & Hi & Hm' & Hv). eexists. split; [|exact Hv]. apply in_map_iff. exists i. split; [reflexivity|].
      apply filter_In. split; [apply in_seq; lia|assumption].
Qed.

(** *** routing *)
Lemma first_true_spec p : forall n k o, k <= o < k + n -> p o = true -> (forall j, k <= j < o -> p j = false) -> first_true n p k = o.
Proof.
  induction n as [|n IH]; intros k o Ho Hpo Hn; [lia|]. cbn. destruct (Nat.eq_dec o k) as [-> |N].
  - now rewrite Hpo.
  - rewrite Hn by lia. apply IH; [lia|assumption|]. intros j Hj. apply Hn. lia.
Qed.
Lemma owner_spec r i o : fc_mat m r i o = true -> owner m r i = o.
Proof.
  intros H. unfold owner. assert (fc_out m = G) as -> by (unfold fc_out; destruct m_is as [-> _]; reflexivity).
  apply first_true_spec; [destruct (mat_lt _ _ _ H); lia|exact H|].
  intros j Hj. destruct (fc_mat m r i j) eqn:E; [|reflexivity]. pose proof (owner_unique _ _ _ _ H E). lia.
Qed.

End Good.
