(** Marginalising a split. *)
From Coq Require Import List Arith ZArith Bool Lia Sorted.
From Verif Require Import Base ScopeModel CircuitModel CircuitSpec CircuitBasics CircuitEval Integral CircuitMarg MargModel MargProofs CircuitProps SplitModel SplitProofs SplitMargModel SplitMargSpec.
Import ListNotations.

Lemma touches_vars S m : touches S (scope_of m) = true <-> exists v, vars m v /\ In v S.
Proof.
  unfold touches, vars. rewrite existsb_exists. split; intros (v & H & K); exists v; (split; [exact H|]).
  - unfold memb in K. apply existsb_exists in K. destruct K as (u & Hu & E). apply Nat.eqb_eq in E. now subst.
  - unfold memb. apply existsb_exists. exists v. split; [exact K|apply Nat.eqb_refl].
Qed.

Lemma deal_map k n {A B} (h : A -> B) (d : A) (l : list A) :
  deal k n (h d) (map h l) = match deal k n d l with Ok p => Ok (map (map h) p) | Err => Err end.
Proof.
  destruct k as [| |g]; cbn [deal].
  - unfold split_consecutive. rewrite map_length. destruct (Nat.eqb (length l / n) 0); [reflexivity|]. f_equal.
    generalize (length l) at 1 3 as fuel. generalize (length l / n) as w. intros w fuel. revert l.
    induction fuel as [|fu IH]; intros l; [reflexivity|]. cbn [chunks]. destruct l as [|a l]; [reflexivity|].
    cbn [map]. change (h a :: map h l) with (map h (a :: l)). rewrite firstn_map, skipn_map, IH. reflexivity.
  - f_equal. unfold split_interleaved. rewrite map_map. apply map_ext. intros i. unfold strided. rewrite map_length, map_map.
    generalize (seq 0 (length l)) as q. intros q. revert q. induction l as [|a l IH]; intros q; [destruct q; reflexivity|].
    destruct q as [|j q]; [reflexivity|]. cbn [combine map filter fst]. destruct (j mod n =? i); cbn [map snd]; now rewrite IH.
  - f_equal. unfold split_by_index. rewrite map_map. apply map_ext. intros q. rewrite map_map. apply map_ext. intros z. apply map_nth.
Qed.

Lemma survivors_two S m f1 f2 v1 v2 : f1 <> f2 -> (f1 < length (fts m))%nat -> (f2 < length (fts m))%nat ->
  In v1 (nth f1 (fts m) []) -> ~ In v1 S -> In v2 (nth f2 (fts m) []) -> ~ In v2 S -> (2 <= length (kidx S (fts m)))%nat.
Proof.
  intros N L1 L2 I1 N1 I2 N2.
  assert (forall f v, (f < length (fts m))%nat -> In v (nth f (fts m) []) -> ~ In v S -> In f (kidx S (fts m))) as K.
  { intros f v L I X. apply kidx_In. split; [assumption|]. exists v. auto. }
  assert (incl [f1; f2] (kidx S (fts m))) as IN by (intros f [<-|[<-|[]]]; eauto).
  apply NoDup_incl_length in IN; [exact IN|]. repeat constructor; cbn; intuition congruence.
Qed.

Lemma kidx_survives S m : wf m -> forall f, In f (kidx S (fts m)) <-> survives S m f.
Proof. intros W f. rewrite kidx_In, (wf_len m (wf_wf1 m W)). reflexivity. Qed.

Lemma seq_sorted n : forall a, StronglySorted lt (seq a n).
Proof.
  induction n as [|n IH]; intros a; cbn [seq]; constructor; [apply IH|].
  apply Forall_forall. intros x Hx. apply in_seq in Hx. lia.
Qed.
Lemma filter_sorted (p : nat -> bool) l : StronglySorted lt l -> StronglySorted lt (filter p l).
Proof.
  induction 1 as [|a l H IH F]; cbn [filter]; [constructor|]. destruct (p a); [|exact IH]. constructor; [exact IH|].
  apply Forall_forall. intros x Hx. apply filter_In in Hx. rewrite Forall_forall in F. now apply F.
Qed.
Lemma kidx_sorted S qs : StronglySorted lt (kidx S qs).
Proof. unfold kidx. apply filter_sorted, seq_sorted. Qed.

Lemma map_nth_seq {B} (h : nat -> B) (l : list nat) : map (fun j => h (nth j l 0)) (seq 0 (length l)) = map h l.
Proof.
  rewrite <- (map_map (fun j => nth j l 0) h). f_equal. apply (nth_ext _ _ 0 0).
  - now rewrite map_length, seq_length.
  - intros i. rewrite map_length, seq_length. intros Hi.
    rewrite (nth_indep _ 0 (nth 0 l 0)) by (now rewrite map_length, seq_length).
    rewrite (map_nth (fun j => nth j l 0) (seq 0 (length l)) 0), seq_nth by assumption. reflexivity.
Qed.

Lemma filter_all {B} (p : B -> bool) l : (forall a, In a l -> p a = true) -> filter p l = l.
Proof. induction l as [|a l IH]; intros H; [reflexivity|]. cbn [filter]. rewrite H by (now left). f_equal. apply IH. intros b Hb. apply H. now right. Qed.

Section M.
  Variables (S : list nat) (prune : bool) (m : module) (s : shape).
  Hypothesis MA : marginalisable m s.

  Lemma marg_result : exists o, marg S prune m = Ok o /\
    (o = None <-> (forall v, vars m v -> In v S)) /\
    (forall m', o = Some m' -> features (out_shape m') = length (kidx S (fts m)) /\
       forall j c r x, (j < length (kidx S (fts m)))%nat -> (c < channels s)%nat -> (r < repetitions s)%nat ->
         loglik m' x j c r = loglik m (set_nan S x) (nth j (kidx S (fts m)) 0) c r).
  Proof.
    destruct MA as (B & A & RO & NE & L). pose proof (built_wf m B) as W.
    destruct (c05 S prune m s B A RO NE L) as (o & E & N & H). exists o. split; [exact E|]. split; [exact N|].
    intros m' ->. destruct (H m' eq_refl) as (_ & s' & L' & C' & R' & F' & V).
    destruct (marg_spec S prune m W A RO NE) as (o' & E' & M). rewrite E in E'. injection E' as <-. destruct M as [_ R].
    destruct (ll_shape_spec m' s' (r_wf _ _ _ R) L') as (F1 & _). split; [congruence|].
    intros j c r x Hj Hc Hr. apply V. unfold in_shape. rewrite F', C', R'. auto.
  Qed.

  Lemma untouched : touches S (scope_of m) = false -> kidx S (fts m) = seq 0 (features (out_shape m)) /\
    forall f c r x, in_shape s f c r -> loglik m x f c r = loglik m (set_nan S x) f c r.
  Proof.
    destruct MA as (B & A & RO & NE & L). pose proof (built_wf m B) as W. pose proof (wf_wf1 m W) as W1. intros T. split.
    - unfold kidx. rewrite (wf_len m W1). apply filter_all. intros f Hf. apply in_seq in Hf.
      apply nonempty_kept. pose proof (wf_qpos m W1 f ltac:(lia)) as Q. unfold nthq in Q. destruct (nth f (fts m) []) as [|v q] eqn:E; [congruence|].
      exists v. split; [now left|]. apply (touches_false _ _ T). apply (wf_union m W1). exists f. split; [lia|]. unfold nthq. rewrite E. now left.
    - intros f c r x I. apply (c04_feature m s f c r); auto. intros v Hv. symmetry. apply set_nan_notIn.
      apply (touches_false _ _ T). apply (wf_union m W1). exists f. split; [|exact Hv]. destruct (ll_shape_spec m s W L) as (E & _). destruct I. congruence.
  Qed.

  Lemma split_marg_spec k n : (k = Consecutive \/ k = Interleaved) ->
  exists o, split_marg S prune (mkSplit m k n) = Ok o /\
    (o = None <-> forall v, vars m v -> In v S) /\
    (forall m', o = Some (SInput m') -> exists f, survives S m f /\ (forall f', survives S m f' -> f' = f) /\
       forall x c r, (c < channels s)%nat -> (r < repetitions s)%nat -> loglik m' x 0 c r = loglik m (set_nan S x) f c r) /\
    (forall s', o = Some (SSplit s') -> exists fs, (forall f, In f fs <-> survives S m f) /\ StronglySorted lt fs /\
       forall x c r, (c < channels s)%nat -> (r < repetitions s)%nat ->
         split_ll s' x c r = deal k n NInf (map (fun f => loglik m (set_nan S x) f c r) fs)).
  Proof.
    intros Hk. destruct MA as (B & A & RO & NE & L). pose proof (built_wf m B) as W.
    unfold split_marg. cbn [sp_in]. destruct (touches S (scope_of m)) eqn:T.
    - destruct marg_result as (o & E & N & H). rewrite E. cbn [bind]. destruct o as [m'|].
      2:{ exists None. split; [reflexivity|]. split; [split; [intros _; apply N; reflexivity|reflexivity]|]. split; intros ? Q; discriminate. }
      destruct (H m' eq_refl) as (F & V). rewrite F.
      assert (Some m' = None <-> (forall v, vars m v -> In v S)) as N' by exact N.
      destruct (prune && Nat.eqb (length (kidx S (fts m))) 1)%bool eqn:Q.
      + apply andb_true_iff in Q. destruct Q as [_ Q]. apply Nat.eqb_eq in Q.
        exists (Some (SInput m')). split; [reflexivity|]. split; [split; [discriminate|intros X; exfalso; apply N' in X; discriminate]|].
        split; [|intros ? X; discriminate]. intros m0 X. injection X as <-.
        destruct (kidx S (fts m)) as [|f [|? ?]] eqn:K; try discriminate. exists f.
        split; [apply (kidx_survives S m W); rewrite K; now left|]. split.
        * intros f' Hf. apply (kidx_survives S m W) in Hf. rewrite K in Hf. destruct Hf as [->|[]]. reflexivity.
        * intros x c r Hc Hr. rewrite V by (cbn; auto). reflexivity.
      + assert (respawn (mkSplit m k n) m' = Ok (mkSplit m' k n)) as -> by (destruct Hk as [-> | ->]; reflexivity). cbn [bind].
        eexists. split; [reflexivity|]. split; [split; [discriminate|intros X; exfalso; apply N' in X; discriminate]|].
        split; [intros ? X; discriminate|]. intros s0 X. injection X as <-. exists (kidx S (fts m)).
        split; [apply (kidx_survives S m W)|]. split; [apply kidx_sorted|]. intros x c r Hc Hr.
        unfold split_ll. cbn [sp_in sp_kind sp_n]. f_equal. rewrite F.
        rewrite <- (map_nth_seq (fun f => loglik m (set_nan S x) f c r)). apply map_ext_in. intros j Hj. apply in_seq in Hj. apply V; auto; lia.
    - destruct (untouched T) as (K & V). eexists. split; [reflexivity|]. split; [|split].
      + split; [discriminate|]. intros X. exfalso. pose proof (wf_wf1 m W) as W1. pose proof (wf_fpos m W1) as P.
        pose proof (wf_qpos m W1 0 P) as Q. unfold nthq in Q. destruct (nth 0 (fts m) []) as [|v q] eqn:E; [congruence|].
        assert (vars m v) as Hv. { apply (wf_union m W1). exists 0. split; [assumption|]. unfold nthq. rewrite E. now left. }
        exact (touches_false _ _ T v Hv (X v Hv)).
      + intros ? X. discriminate.
      + intros s0 X. injection X as <-. exists (kidx S (fts m)). split; [apply (kidx_survives S m W)|]. split; [apply kidx_sorted|].
        intros x c r Hc Hr. unfold split_ll. cbn [sp_in sp_kind sp_n]. f_equal. rewrite K. apply map_ext_in. intros j Hj. apply in_seq in Hj.
        apply V. unfold in_shape. destruct (ll_shape_spec m s W L) as (E & _). rewrite E. repeat split; auto; lia.
  Qed.

  Lemma by_index_raises g n : (exists v, vars m v /\ In v S) -> (exists f f', f <> f' /\ survives S m f /\ survives S m f') ->
    split_marg S prune (mkSplit m (ByIndex g) n) = Err.
  Proof.
    destruct MA as (B & A & RO & NE & L). intros T (f & f' & D & (Lf & v & Iv & Nv) & (Lf' & v' & Iv' & Nv')).
    pose proof (built_wf m B) as W. pose proof (wf_len m (wf_wf1 m W)) as WL.
    unfold split_marg. cbn [sp_in]. rewrite (proj2 (touches_vars S m) T).
    destruct marg_result as (o & E & N & H). rewrite E. cbn [bind].
    assert (2 <= length (kidx S (fts m)))%nat as K by (eapply (survivors_two S m f f' v v'); auto; lia).
    destruct o as [m'|].
    - destruct (H m' eq_refl) as (F & _). rewrite F.
      destruct (Nat.eqb_spec (length (kidx S (fts m))) 1) as [e|_]; [lia|]. rewrite andb_false_r. reflexivity.
    - exfalso. apply Nv, (proj1 N eq_refl). apply (wf_union m (wf_wf1 m W)). exists f. split; [lia|assumption].
  Qed.
End M.
