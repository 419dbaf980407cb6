(** C313-C315: marginalising splits. *)
From Coq Require Import List Arith ZArith Bool Lia Lra Sorted Permutation.
From Verif Require Import Base ScopeModel CircuitModel CircuitSpec CircuitBasics CircuitEval Integral CircuitMarg MargModel MargProofs CircuitProps CircuitExamples
  SplitModel SplitProofs SplitMargModel SplitMargSpec SplitMargProofs.
Import ListNotations.
Local Open Scope R_scope.

(** C313 (refuted: a SplitByIndex can be marginalised): it raises for every input
    and request that names a variable and leaves two features. *)
Theorem C313_by_index_raises : forall S prune m s g n, marginalisable m s ->
  (exists v, vars m v /\ In v S) -> (exists f f', f <> f' /\ survives S m f /\ survives S m f') ->
  split_marg S prune (mkSplit m (ByIndex g) n) = Err.
Proof. intros S prune m s g n M. exact (by_index_raises S prune m s M g n). Qed.
Print Assumptions C313_by_index_raises.

(** four Bernoulli variables *)
Definition ex4 : module := MLeaf (bern [0; 1; 2; 3]%nat 1 1 (fun _ _ _ => 1/2)).
Lemma ex4_ok : marginalisable ex4 (mkShape 4 1 1).
Proof.
  assert (NoDup [0; 1; 2; 3]%nat) as ND by (repeat constructor; cbn; intuition lia).
  split; [apply b_leaf, bern_ok; auto; try lia; discriminate|]. cbn. repeat split; auto.
Qed.

Definition by_index_marginalisable : Prop := forall S m s g n, marginalisable m s ->
  mk_split_by_index (Some g) (features (out_shape m)) = Ok g -> n = length g ->
  (exists f, survives S m f) -> exists r, split_marg S true (mkSplit m (ByIndex g) n) = Ok r.
Theorem C313_by_index_refuted : ~ by_index_marginalisable.
Proof.
  intros H. destruct (H [0]%nat ex4 _ [[0; 2]; [1; 3]]%Z 2%nat ex4_ok eq_refl eq_refl) as (r & E).
  { exists 1%nat. split; [cbn; lia|]. exists 1%nat. cbn. split; [auto|lia]. }
  rewrite (C313_by_index_raises _ _ _ _ _ _ ex4_ok) in E; [discriminate| |].
  - exists 0%nat. unfold vars. cbn. auto.
  - exists 1%nat, 2%nat. split; [lia|]. split; (split; [cbn; lia|]); [exists 1%nat|exists 2%nat]; cbn; (split; [auto|lia]).
Qed.
Print Assumptions C313_by_index_refuted.

(** C314: marginalising a consecutive or interleaved split deals out the marginal's
    features: marginalize never raises, is None exactly when every variable is named,
    and the result's outputs are the surviving features of the input, scored with the
    named variables missing, in order, dealt to the same number of splits in the same
    manner.  A marginalised input (one surviving feature, pruning) is that feature. *)
Theorem C314_split_marginalize : forall S prune m s k n, (k = Consecutive \/ k = Interleaved) -> marginalisable m s ->
  exists o, split_marg S prune (mkSplit m k n) = Ok o /\
    (o = None <-> forall v, vars m v -> In v S) /\
    (forall m', o = Some (SInput m') -> exists f, survives S m f /\ (forall f', survives S m f' -> f' = f) /\
       forall x c r, (c < channels s)%nat -> (r < repetitions s)%nat -> loglik m' x 0 c r = loglik m (set_nan S x) f c r) /\
    (forall s', o = Some (SSplit s') -> exists fs, (forall f, In f fs <-> survives S m f) /\ StronglySorted lt fs /\
       forall x c r, (c < channels s)%nat -> (r < repetitions s)%nat ->
         split_ll s' x c r = deal k n NInf (map (fun f => loglik m (set_nan S x) f c r) fs)).
Proof. intros S prune m s k n Hk M. exact (split_marg_spec S prune m s M k n Hk). Qed.
Print Assumptions C314_split_marginalize.

Example C314_nonvacuous : marginalisable ex4 (mkShape 4 1 1) /\ survives [0]%nat ex4 1 /\
  exists s', split_marg [0]%nat true (mkSplit ex4 Interleaved 2) = Ok (Some (SSplit s')) /\ features (out_shape (sp_in s')) = 3%nat.
Proof.
  split; [exact ex4_ok|]. split; [split; [cbn; lia|]; exists 1%nat; cbn; split; [auto|lia]|]. eexists. split; reflexivity.
Qed.

(** C315 (refuted: a marginalised split keeps the number of outputs, one group per
    split): a consecutive split of 2n features into n returns n outputs, and 2n-1
    once a single feature is marginalised out; with fewer than n features left its
    log_likelihood raises. *)
Lemma length_chunks1 {A} : forall fuel (l : list A), (length l <= fuel)%nat -> length (chunks fuel 1 l) = length l.
Proof.
  induction fuel as [|fu IH]; intros l H; [destruct l; [reflexivity|cbn in H; lia]|].
  destruct l as [|a l]; [reflexivity|]. cbn [chunks length]. f_equal. cbn [skipn]. apply IH. cbn in H. lia.
Qed.

Lemma consecutive_whole {A} n w (l : list A) : (0 < n)%nat -> (0 < w)%nat -> length l = (n * w)%nat ->
  exists p, split_consecutive n l = Ok p /\ length p = n.
Proof.
  intros Hn Hw L. unfold split_consecutive. rewrite L, (Nat.mul_comm n w), Nat.div_mul by lia.
  destruct (Nat.eqb_spec w 0); [lia|]. eexists. split; [reflexivity|].
  rewrite (chunks_div w Hw n) by (rewrite ?L; lia). now rewrite map_length, seq_length.
Qed.

Theorem C315_output_count : forall S prune m s n f0, (2 <= n)%nat -> marginalisable m s -> features (out_shape m) = (2 * n)%nat ->
  (f0 < 2 * n)%nat -> (forall f, (f < 2 * n)%nat -> (survives S m f <-> f <> f0)) ->
  exists s', split_marg S prune (mkSplit m Consecutive n) = Ok (Some (SSplit s')) /\
    forall x c r, (c < channels s)%nat -> (r < repetitions s)%nat ->
      (exists p, split_ll (mkSplit m Consecutive n) x c r = Ok p /\ length p = n) /\
      (exists p, split_ll s' x c r = Ok p /\ length p = (2 * n - 1)%nat).
Proof.
  intros S prune m s n f0 Hn M F L0 SV.
  destruct (split_marg_spec S prune m s M Consecutive n (or_introl eq_refl)) as (o & E & N & HI & HS). rewrite E.
  assert (forall f, survives S m f -> (f < 2 * n)%nat) as SB by (intros f (Lf & _); lia).
  assert (exists fa fb, fa <> fb /\ survives S m fa /\ survives S m fb) as (fa & fb & D & Sa & Sb).
  { destruct (Nat.eq_dec f0 0) as [->|N0].
    - exists 1%nat, 2%nat. repeat split; try lia; apply SV; lia.
    - destruct (Nat.eq_dec f0 1) as [->|N1]; [exists 0%nat, 2%nat|exists 0%nat, 1%nat]; repeat split; try lia; apply SV; lia. }
  destruct o as [[m'|s']|].
  - exfalso. destruct (HI m' eq_refl) as (f & _ & U & _). apply D. rewrite (U fa Sa), (U fb Sb). reflexivity.
  - exists s'. split; [reflexivity|]. intros x c r Hc Hr. destruct (HS s' eq_refl) as (fs & I & SS & V). split.
    + unfold split_ll. cbn [sp_in sp_kind sp_n deal]. apply (consecutive_whole n 2); [lia|lia|]. rewrite map_length, seq_length. lia.
    + rewrite (V x c r Hc Hr). cbn [deal]. assert (NoDup fs) as ND.
      { clear -SS. induction SS as [|a l SS IH FA]; constructor; [|exact IH]. intros Ha. rewrite Forall_forall in FA. specialize (FA a Ha). lia. }
      assert (length fs = 2 * n - 1)%nat as LF.
      { assert (Permutation (f0 :: fs) (seq 0 (2 * n))) as P.
        { apply NoDup_Permutation.
          - constructor; [|exact ND]. intros X. apply I in X. apply (SV f0 L0) in X. congruence.
          - apply seq_NoDup.
          - intros f. rewrite in_seq. cbn [In]. split.
            + intros [<-|X]; [lia|]. apply I, SB in X. lia.
            + intros X. destruct (Nat.eq_dec f f0) as [->|NE]; [now left|]. right. apply I, SV; [lia|assumption]. }
        apply Permutation_length in P. cbn [length] in P. rewrite seq_length in P. lia. }
      unfold split_consecutive. rewrite map_length, LF.
      assert ((2 * n - 1) / n = 1)%nat as Q by (symmetry; apply (Nat.div_unique (2 * n - 1) n 1 (n - 1)); lia).
      rewrite Q. cbn [Nat.eqb]. eexists. split; [reflexivity|]. rewrite length_chunks1; rewrite map_length; lia.
  - exfalso. destruct Sa as (_ & v & Iv & Nv). apply Nv, (proj1 N eq_refl). destruct M as (B & _). pose proof (built_wf m B) as W.
    apply (wf_union m (wf_wf1 m W)). exists fa. split; [|exact Iv].
    destruct (Nat.lt_ge_cases fa (length (fts m))) as [X|X]; [rewrite <- (wf_len m (wf_wf1 m W)); exact X|].
    rewrite nth_overflow in Iv by exact X. destruct Iv.
Qed.
Print Assumptions C315_output_count.

Theorem C315_too_few : forall m s n x c r, marginalisable m s -> (0 < n)%nat -> (features (out_shape m) < n)%nat ->
  split_ll (mkSplit m Consecutive n) x c r = Err.
Proof.
  intros m s n x c r _ Hn F. unfold split_ll. cbn [sp_in sp_kind sp_n deal]. unfold split_consecutive.
  rewrite map_length, seq_length, Nat.div_small by exact F. reflexivity.
Qed.
Print Assumptions C315_too_few.

Definition count_kept : Prop := forall S m s n s' x p p', marginalisable m s -> (2 <= n)%nat -> (n <= features (out_shape m))%nat ->
  split_marg S true (mkSplit m Consecutive n) = Ok (Some (SSplit s')) -> (0 < channels s)%nat -> (0 < repetitions s)%nat ->
  split_ll (mkSplit m Consecutive n) x 0 0 = Ok p -> split_ll s' x 0 0 = Ok p' -> length p' = length p.
Lemma ex4_survivors : forall f, (f < 2 * 2)%nat -> (survives [0]%nat ex4 f <-> f <> 0%nat).
Proof.
  intros f Hf. split.
  - intros (_ & v & Iv & Nv) ->. cbn in Iv. destruct Iv as [<-|[]]. apply Nv. now left.
  - intros N. split; [cbn; lia|]. exists f. split; [|cbn; intuition lia].
    destruct f as [|[|[|[|f]]]]; try lia; cbn; auto.
Qed.
Theorem C315_count_refuted : ~ count_kept.
Proof.
  intros H. destruct (C315_output_count [0]%nat true ex4 _ 2 0 ltac:(lia) ex4_ok eq_refl ltac:(lia) ex4_survivors) as (s' & E & V).
  destruct (V (fun _ => None) 0%nat 0%nat) as ((p & E1 & L1) & (p' & E2 & L2)); [cbn; lia|cbn; lia|].
  pose proof (H [0]%nat ex4 _ 2%nat s' (fun _ => None) p p' ex4_ok ltac:(lia) ltac:(cbn; lia) E ltac:(cbn; lia) ltac:(cbn; lia) E1 E2). lia.
Qed.
Print Assumptions C315_count_refuted.
