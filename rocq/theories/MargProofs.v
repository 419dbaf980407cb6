(** Structural marginalisation agrees with marginalisation by missing values. *)
From Coq Require Import List Arith Bool Lia Lra.
From Verif Require Import Base ScopeModel ScopeProofs CircuitModel CircuitBasics CircuitEval Integral CircuitMarg MargModel.
Import ListNotations.
Local Open Scope R_scope.

Definition keep (S : list nat) (qs : list (list nat)) : list (list nat) :=
  map (fun f => kept S (nth f qs [])) (kidx S qs).

Lemma kept_In S q v : In v (kept S q) <-> In v q /\ ~ In v S.
Proof. unfold kept. now rewrite filter_In, negb_true_iff, memb_false. Qed.

Lemma nonempty_spec q : nonempty q = true <-> q <> [].
Proof. destruct q; cbn; split; congruence. Qed.

Lemma nonempty_kept S q : nonempty (kept S q) = true <-> exists v, In v q /\ ~ In v S.
Proof.
  rewrite nonempty_spec. split.
  - intros H. destruct (kept S q) as [|v k] eqn:E; [congruence|]. exists v. apply kept_In. rewrite E. now left.
  - intros (v & H). apply kept_In in H. intros E. rewrite E in H. destruct H.
Qed.

Lemma seq_shift_map a n : seq a n = map (fun i => (a + i)%nat) (seq 0 n).
Proof.
  revert a. induction n as [|n IH]; intros a; [reflexivity|]. cbn [seq map]. f_equal; [lia|].
  rewrite (IH (S a)), (IH 1%nat), map_map. apply map_ext. intros; lia.
Qed.

Lemma filter_map_comm {A B} (p : B -> bool) (g : A -> B) l : filter p (map g l) = map g (filter (fun a => p (g a)) l).
Proof. induction l as [|a l IH]; [reflexivity|]. cbn. destruct (p (g a)); cbn; now rewrite IH. Qed.

Lemma kidx_app S a b : kidx S (a ++ b) = kidx S a ++ map (fun i => (length a + i)%nat) (kidx S b).
Proof.
  unfold kidx. rewrite app_length, seq_app, filter_app. f_equal.
  - apply filter_ext_in. intros f Hf. apply in_seq in Hf. now rewrite app_nth1 by lia.
  - cbn [Nat.add]. rewrite seq_shift_map, filter_map_comm. f_equal. apply filter_ext. intros f.
    rewrite app_nth2 by lia. do 3 f_equal. lia.
Qed.

Lemma keep_app S a b : keep S (a ++ b) = keep S a ++ keep S b.
Proof.
  unfold keep. rewrite kidx_app, map_app, map_map. f_equal.
  - apply map_ext_in. intros f Hf. unfold kidx in Hf. apply filter_In in Hf. destruct Hf as [Hf _].
    apply in_seq in Hf. now rewrite app_nth1 by lia.
  - apply map_ext. intros f. rewrite app_nth2 by lia. do 2 f_equal. lia.
Qed.

Lemma keep_nil S : keep S [] = [].
Proof. reflexivity. Qed.

Lemma kidx_In S qs f : In f (kidx S qs) <-> (f < length qs)%nat /\ exists v, In v (nth f qs []) /\ ~ In v S.
Proof. unfold kidx. rewrite filter_In, in_seq, nonempty_kept. cbn. intuition lia. Qed.

Lemma kidx_NoDup S qs : NoDup (kidx S qs).
Proof. apply NoDup_filter, seq_NoDup. Qed.

Lemma keep_length S qs : length (keep S qs) = length (kidx S qs).
Proof. apply map_length. Qed.

Lemma nth_map_lt {A B} (g : A -> B) l j d d' : (j < length l)%nat -> nth j (map g l) d' = g (nth j l d).
Proof. intros H. rewrite nth_indep with (d' := g d) by now rewrite map_length. apply map_nth. Qed.

Lemma kidx_all S qs : (forall f, (f < length qs)%nat -> exists v, In v (nth f qs []) /\ ~ In v S) ->
  kidx S qs = seq 0 (length qs).
Proof.
  intros H. unfold kidx. rewrite <- (filter_ext_in (fun _ => true)).
  - clear. induction (seq 0 (length qs)) as [|a l IH]; [reflexivity|]. cbn. now rewrite IH.
  - intros f Hf. apply in_seq in Hf. symmetry. apply nonempty_kept, H. lia.
Qed.

Lemma kidx_none S qs : (forall q v, In q qs -> In v q -> In v S) -> kidx S qs = [].
Proof.
  intros H. destruct (kidx S qs) as [|f l] eqn:E; [reflexivity|].
  assert (In f (kidx S qs)) as Hf by (rewrite E; now left).
  apply kidx_In in Hf. destruct Hf as (Hf & v & Hv & Hn). exfalso. apply Hn. eapply H; [|exact Hv].
  now apply nth_In.
Qed.

Lemma kept_id S q : (forall v, In v q -> ~ In v S) -> kept S q = q.
Proof.
  unfold kept. induction q as [|v q IH]; intros H; [reflexivity|]. cbn.
  assert (memb v S = false) as -> by (apply memb_false, H; now left). cbn. f_equal. apply IH.
  intros; apply H; now right.
Qed.

Lemma map_nth_seq {A} (l : list A) d : map (fun i => nth i l d) (seq 0 (length l)) = l.
Proof.
  induction l as [|a l IH]; [reflexivity|]. cbn [length seq map]. f_equal. rewrite <- seq_shift, map_map. exact IH.
Qed.

(** the leaf *)
Lemma kidx_singletons S q : map (fun i => nth i q 0%nat) (kidx S (map (fun v => [v]) q)) = kept S q.
Proof.
  induction q as [|v q IH]; [reflexivity|].
  change (map (fun v => [v]) (v :: q)) with ([[v]] ++ map (fun v => [v]) q).
  rewrite kidx_app, map_app, map_map. unfold kidx at 1. cbn [length seq filter nth kept].
  rewrite (map_ext (fun x => nth (1 + x) (v :: q) 0%nat) (fun i => nth i q 0%nat)) by reflexivity.
  rewrite IH. unfold kept. cbn [filter]. destruct (negb (memb v S)); reflexivity.
Qed.

Lemma keep_singletons S q : keep S (map (fun v => [v]) q) = map (fun v => [v]) (kept S q).
Proof.
  induction q as [|v q IH]; [reflexivity|].
  change (map (fun v => [v]) (v :: q)) with ([[v]] ++ map (fun v => [v]) q).
  rewrite keep_app, IH. unfold keep, kidx, kept. cbn. destruct (negb (memb v S)) eqn:E; cbn; rewrite ?E; reflexivity.
Qed.

(** products over a selection of the indices *)
Lemma bprod_list n (g : nat -> R) (l : list nat) :
  NoDup l -> (forall i, In i l -> (i < n)%nat) -> (forall i, (i < n)%nat -> ~ In i l -> g i = 1) ->
  bprod n g = bprod (length l) (fun j => g (nth j l 0%nat)).
Proof.
  revert g. induction l as [|a l IH]; intros g ND Hl H1.
  - cbn. apply bprod_one. intros i Hi. apply H1; auto.
  - inversion ND as [|? ? Ha ND']; subst. cbn [length]. rewrite bprod_S_first. cbn [nth].
    rewrite (bprod_isolate n g a) by (apply Hl; now left). f_equal.
    rewrite IH with (g := fun i => if Nat.eqb i a then 1 else g i).
    + apply bprod_ext. intros j Hj. destruct (Nat.eqb_spec (nth j l 0%nat) a) as [E|E]; [|reflexivity].
      exfalso. apply Ha. rewrite <- E. now apply nth_In.
    + assumption.
    + intros; apply Hl; now right.
    + intros i Hi Hn. destruct (Nat.eqb_spec i a) as [E|E]; [reflexivity|]. apply H1; [assumption|].
      intros [<-|C]; congruence.
Qed.

(** constructors succeed *)
Lemma mk_cat_true_intro c0 cs : 
  (forall c, In c (c0 :: cs) -> features (out_shape c) = features (out_shape c0)) ->
  (forall c c', In c (c0 :: cs) -> In c' (c0 :: cs) -> scope_eqb (scope_of c) (scope_of c') = true) ->
  mk_cat true (c0 :: cs) = Ok (MCat true (scope_of c0) (c0 :: cs)).
Proof.
  intros HF HE. unfold mk_cat.
  assert (forallb (fun c => Nat.eqb (features (out_shape c)) (features (out_shape c0))) (c0 :: cs) = true) as ->.
  { apply forallb_forall. intros c Hc. apply Nat.eqb_eq, HF, Hc. }
  assert (all_equal (map scope_of (c0 :: cs)) = true) as ->; [|reflexivity].
  apply all_equal_spec. intros s t Hs Ht. apply in_map_iff in Hs, Ht.
  destruct Hs as (c & <- & Hc), Ht as (c' & <- & Hc'). auto.
Qed.

Lemma mk_cat_false_intro c0 cs :
  Forall wf (c0 :: cs) ->
  (forall c, In c (c0 :: cs) -> channels (out_shape c) = channels (out_shape c0)) ->
  ForallOrdPairs disjoint_scopes (map scope_of (c0 :: cs)) ->
  exists sc, mk_cat false (c0 :: cs) = Ok (MCat false sc (c0 :: cs)).
Proof.
  intros W HC HD. unfold mk_cat.
  assert (forallb (fun c => Nat.eqb (channels (out_shape c)) (channels (out_shape c0))) (c0 :: cs) = true) as ->.
  { apply forallb_forall. intros c Hc. apply Nat.eqb_eq, HC, Hc. }
  assert (Forall valid (map scope_of (c0 :: cs))) as HV.
  { apply Forall_forall. intros s Hs. apply in_map_iff in Hs. destruct Hs as (c & <- & Hc).
    rewrite Forall_forall in W. apply wf_scope, wf_wf1, W, Hc. }
  destruct (all_pairwise_disjoint_spec _ HV) as (b & Eb & Hb). rewrite Eb. cbn [bind].
  assert (b = true) as -> by now apply Hb.
  destruct (join_all_ok (map scope_of (c0 :: cs))) as (sc & Es & _); [discriminate|assumption|].
  rewrite Es. cbn [bind]. eauto.
Qed.

Lemma close1_1 : close1 1 = true.
Proof.
  unfold close1, rle. destruct (Rle_dec _ _) as [|H]; [reflexivity|]. exfalso. apply H.
  replace (1 - 1) with 0 by ring. rewrite Rabs_R0.
  assert (0 < / 10 ^ 8) by (apply Rinv_0_lt_compat; lra).
  assert (0 < / 10 ^ 5) by (apply Rinv_0_lt_compat; lra). lra.
Qed.

Lemma set_weights_intro c w :
  wF w = features (out_shape c) -> wI w = channels (out_shape c) ->
  (forall f i o r, (f < wF w)%nat -> (i < wI w)%nat -> (o < wO w)%nat -> (r < wR w)%nat -> 0 < wv w f i o r) ->
  (forall f o r, (f < wF w)%nat -> (o < wO w)%nat -> (r < wR w)%nat -> bsum (wI w) (fun i => wv w f i o r) = 1) ->
  set_weights c (wO w) (wR w) w = Ok (MSum c (wO w) (wR w) (fun f i o r => ln (wv w f i o r))).
Proof.
  intros E1 E2 HP HS. unfold set_weights.
  assert (weights_shape_ok w (features (out_shape c)) (channels (out_shape c)) (wO w) (wR w) = true) as ->.
  { unfold weights_shape_ok. rewrite E1, E2, !Nat.eqb_refl. reflexivity. }
  assert (weights_pos w = true) as ->.
  { unfold weights_pos, allb.
    apply forallb_forall; intros f Hf. apply forallb_forall; intros i Hi.
    apply forallb_forall; intros o Ho. apply forallb_forall; intros r Hr.
    apply in_seq in Hf, Hi, Ho, Hr. unfold rlt. destruct (Rlt_dec _ _) as [|N]; [reflexivity|].
    exfalso. apply N, HP; lia. }
  assert (weights_sum1 w = true) as ->; [|reflexivity].
  unfold weights_sum1, allb.
  apply forallb_forall; intros f Hf. apply forallb_forall; intros o Ho. apply forallb_forall; intros r Hr.
  apply in_seq in Hf, Ho, Hr. rewrite HS by lia. apply close1_1.
Qed.

Lemma mk_sum_w_intro c w :
  (1 <= wO w)%nat -> wF w = features (out_shape c) -> wI w = channels (out_shape c) ->
  (forall f i o r, (f < wF w)%nat -> (i < wI w)%nat -> (o < wO w)%nat -> (r < wR w)%nat -> 0 < wv w f i o r) ->
  (forall f o r, (f < wF w)%nat -> (o < wO w)%nat -> (r < wR w)%nat -> bsum (wI w) (fun i => wv w f i o r) = 1) ->
  mk_sum_w c 1 1 (W4 w) = Ok (MSum c (wO w) (wR w) (fun f i o r => ln (wv w f i o r))).
Proof.
  intros HO E1 E2 HP HS. unfold mk_sum_w. cbn [norm_warg Nat.eqb negb andb].
  destruct (Nat.ltb_spec (wO w) 1); [lia|]. now apply set_weights_intro.
Qed.

(** softmax undoes the logarithm of a positive vector summing to one *)
Lemma softmax_ln n (p : nat -> R) i : (i < n)%nat -> (forall j, (j < n)%nat -> 0 < p j) -> bsum n p = 1 ->
  softmax n (fun j => ln (p j)) i = p i.
Proof.
  intros Hi HP HS. unfold softmax. rewrite (bsum_ext n _ p).
  - rewrite HS, exp_ln by auto. field.
  - intros j Hj. apply exp_ln. auto.
Qed.

(** logsumexp shape of Cat *)
Lemma cat_go_intro (d2 : bool) c0 cs :
  (forall c, In c (c0 :: cs) -> exists t, ll_shape c = Ok t /\ 
     (forall t0, ll_shape c0 = Ok t0 -> repetitions t = repetitions t0 /\ if d2 then features t = features t0 else channels t = channels t0)) ->
  exists s, cat_go d2 (c0 :: cs) = Ok s /\ (forall t0, ll_shape c0 = Ok t0 -> repetitions s = repetitions t0 /\ if d2 then features s = features t0 else channels s = channels t0).
Proof.
  revert c0. induction cs as [|c cs IH]; intros c0 H.
  - destruct (H c0 (or_introl eq_refl)) as (t & Ht & _). cbn. rewrite Ht. cbn. exists t. split; [reflexivity|].
    intros t0 Ht0. injection Ht0 as <-. split; [reflexivity|]. now destruct d2.
  - destruct (H c0 (or_introl eq_refl)) as (t0 & Ht0 & _).
    destruct (H c (or_intror (or_introl eq_refl))) as (t1 & Ht1 & R1). destruct (R1 t0 Ht0) as [R1a R1b].
    destruct (IH c) as (s & Es & Hs).
    { intros c' Hc'. destruct (H c' (or_intror Hc')) as (t & Ht & Hr). exists t. split; [assumption|].
      intros u Hu. rewrite Ht1 in Hu. injection Hu as <-. destruct (Hr t0 Ht0) as [A B]. split; [congruence|].
      destruct d2; congruence. }
    destruct (Hs t1 Ht1) as [Rs Fs].
    change (cat_go d2 (c0 :: c :: cs)) with (bind (ll_shape c0) (fun s =>
         bind (cat_go d2 (c :: cs)) (fun t =>
                   if d2
                   then if (Nat.eqb (features s) (features t) && Nat.eqb (repetitions s) (repetitions t))%bool
                        then Ok (mkShape (features s) (channels s + channels t) (repetitions s)) else Err
                   else if (Nat.eqb (channels s) (channels t) && Nat.eqb (repetitions s) (repetitions t))%bool
                        then Ok (mkShape (features s + features t) (channels s) (repetitions s)) else Err))).
    rewrite Ht0. cbn [bind]. rewrite Es. cbn [bind].
    destruct d2.
    + replace (features s) with (features t0) by congruence. replace (repetitions s) with (repetitions t0) by congruence.
      rewrite !Nat.eqb_refl. cbn [andb]. eexists. split; [reflexivity|]. intros u Hu. injection Hu as <-. now split.
    + replace (channels s) with (channels t0) by congruence. replace (repetitions s) with (repetitions t0) by congruence.
      rewrite !Nat.eqb_refl. cbn [andb]. eexists. split; [reflexivity|]. intros u Hu. injection Hu as <-. now split.
Qed.

(** ** The relation between a module and its marginalised version *)
Record rel (S : list nat) (m m' : module) : Prop := {
  r_wf : wf m';
  r_al : aligned m';
  r_fts : fts m' = keep S (fts m);
  r_ch : channels (out_shape m') = channels (out_shape m);
  r_q : forall v, In v (query (scope_of m')) <-> In v (query (scope_of m)) /\ ~ In v S;
  r_ev : evidence (scope_of m') = [];
  r_ll : (exists s, ll_shape m = Ok s) -> (exists s', ll_shape m' = Ok s') /\ ll_reps m' = ll_reps m;
  r_val : forall j c r x, (j < length (kidx S (fts m)))%nat -> pos m (nth j (kidx S (fts m)) 0%nat) c r ->
    prob m' x j c r = prob m (set_nan S x) (nth j (kidx S (fts m)) 0%nat) c r }.

Definition covered (S : list nat) (m : module) : Prop := forall v, In v (query (scope_of m)) -> In v S.

Lemma covers_spec S s : covers S s = true <-> forall v, In v (query s) -> In v S.
Proof.
  unfold covers. rewrite forallb_forall. split; intros H v Hv; [now apply memb_In, H|now apply memb_In, H].
Qed.

Lemma touches_spec S s : touches S s = true <-> exists v, In v (query s) /\ In v S.
Proof.
  unfold touches. rewrite existsb_exists. split; intros (v & A & B); exists v; (split; [assumption|now apply memb_In]).
Qed.

Lemma touches_false S s : touches S s = false -> forall v, In v (query s) -> ~ In v S.
Proof.
  intros H v Hv Hs. assert (touches S s = true) as C by (apply touches_spec; eauto). congruence.
Qed.

Lemma rel_features S m m' : wf m -> rel S m m' -> features (out_shape m') = length (kidx S (fts m)).
Proof.
  intros W R. rewrite <- (wf_len m' (wf_wf1 m' (r_wf _ _ _ R))), (r_fts _ _ _ R). apply keep_length.
Qed.

Lemma fts_in_query m f v : wf m -> (f < length (fts m))%nat -> In v (nth f (fts m) []) -> In v (query (scope_of m)).
Proof.
  intros W Hf Hv. apply (wf_union m (wf_wf1 m W)). exists f. split; [|exact Hv].
  now rewrite <- (wf_len m (wf_wf1 m W)).
Qed.

Lemma untouched_kidx S m : wf m -> (forall v, In v (query (scope_of m)) -> ~ In v S) ->
  kidx S (fts m) = seq 0 (length (fts m)) /\ keep S (fts m) = fts m.
Proof.
  intros W H. assert (kidx S (fts m) = seq 0 (length (fts m))) as E.
  { apply kidx_all. intros f Hf.
    assert (f < features (out_shape m))%nat as Hf' by now rewrite <- (wf_len m (wf_wf1 m W)).
    pose proof (wf_qpos m (wf_wf1 m W) f Hf') as Q. unfold nthq in Q.
    destruct (nth f (fts m) []) as [|v q] eqn:En; [congruence|]. exists v. split; [now left|].
    apply H. apply (fts_in_query m f); auto. rewrite En. now left. }
  split; [assumption|]. unfold keep. rewrite E.
  transitivity (map (fun f => nth f (fts m) []) (seq 0 (length (fts m)))); [|apply map_nth_seq].
  apply map_ext_in. intros f Hf. apply in_seq in Hf. apply kept_id. intros v Hv. apply H.
  apply (fts_in_query m f); [assumption|lia|assumption].
Qed.

Lemma rel_refl S m : wf m -> aligned m -> evidence (scope_of m) = [] ->
  (forall v, In v (query (scope_of m)) -> ~ In v S) -> rel S m m.
Proof.
  intros W A Ev H. destruct (untouched_kidx S m W H) as [E1 E2]. split; auto.
  - intros v. split; [|tauto]. intros Hv; split; auto.
  - intros j c r x Hj HP. rewrite E1 in *. rewrite seq_length in Hj. rewrite seq_nth in * by assumption.
    cbn [Nat.add] in *. unfold prob. f_equal. apply evalm_scope_local; [assumption|apply HP|].
    intros v Hv. rewrite set_nan_notIn; auto.
Qed.

Lemma no_evidence_scope m : wf m -> no_evidence m -> evidence (scope_of m) = [].
Proof.
  induction m as [l|c co rr lg IH|d2 sc cs IH|c IH] using module_ind'; intros W N; cbn in N.
  - exact N.
  - cbn in W. apply IH; tauto.
  - pose proof (wf_cat_children _ _ _ W) as Wc. apply go_Forall in N.
    rewrite Forall_forall in IH, Wc, N. cbn in W. destruct W as (Hne & _ & W). cbn [scope_of].
    destruct d2.
    + destruct W as (_ & _ & ->). destruct cs as [|c cs]; [congruence|]. cbn. apply IH; auto; try now left.
      * apply Wc; now left.
      * apply N; now left.
    + destruct W as (_ & _ & [_ Hv] & _). destruct (evidence sc) as [|v e]; [reflexivity|].
      destruct (Hv v (or_introl eq_refl)) as (c & Hc & Hin). rewrite IH in Hin; auto. destruct Hin.
  - cbn in W. now apply IH.
Qed.

(** leaf *)
Lemma leaf_rel S l : leaf_okb l = true -> nonempty (kept S (query (l_scope l))) = true ->
  rel S (MLeaf l) (MLeaf (leaf_marg S l)).
Proof.
  intros H NE. pose proof (proj1 (leaf_okb_spec l) H) as (V & Hq & Hc & Hr).
  assert (wf (MLeaf (leaf_marg S l))) as W'.
  { cbn. apply leaf_okb_spec. cbn. split; [|split; [now apply nonempty_spec|auto]].
    destruct V as (V1 & _). repeat split; cbn; [now apply NoDup_filter|constructor|tauto]. }
  split; auto.
  - exact I.
  - cbn [fts leaf_marg l_scope query]. symmetry. apply keep_singletons.
  - intros v. cbn. apply kept_In.
  - intros _. cbn. split; eauto.
  - intros j c r x Hj HP. destruct HP as (_ & Hf & _). cbn [out_shape features] in Hf.
    cbn [fts] in *. set (idx := kidx S (map (fun v => [v]) (query (l_scope l)))) in *.
    unfold prob, loglik. cbn [evalm]. unfold leaf_score. f_equal. cbn [leaf_marg l_scope query l_lp].
    fold idx. 
    assert (nth j (kept S (query (l_scope l))) 0%nat = nth (nth j idx 0%nat) (query (l_scope l)) 0%nat) as E.
    { rewrite <- kidx_singletons. fold idx. rewrite (nth_map_lt _ idx j 0%nat) by assumption. reflexivity. }
    rewrite E, set_nan_notIn; [reflexivity|].
    rewrite <- E. assert (In (nth j (kept S (query (l_scope l))) 0%nat) (kept S (query (l_scope l)))) as Hin.
    { apply nth_In. rewrite <- kidx_singletons. fold idx. now rewrite map_length. }
    apply kept_In in Hin. tauto.
Qed.

(** Sum *)
Lemma sum_rel S c c' co rr lg lg' : wf c -> aligned c -> (1 <= co)%nat -> rel S c c' ->
  (forall f o r i, (f < length (kidx S (fts c)))%nat -> (o < co)%nat -> (r < rr)%nat -> (i < channels (out_shape c))%nat ->
     softmax (channels (out_shape c)) (fun i => lg' f i o r) i
     = softmax (channels (out_shape c)) (fun i => lg (nth f (kidx S (fts c)) 0%nat) i o r) i) ->
  rel S (MSum c co rr lg) (MSum c' co rr lg').
Proof.
  intros W A Hco R HL. destruct R. pose proof (wf_cpos c (wf_wf1 c W)) as Cp.
  pose proof (wf_cpos c' (wf_wf1 c' r_wf0)) as Cp'. split; cbn [fts scope_of]; auto.
  - cbn. auto.
  - intros (s & Hs). destruct (ll_shape_sum _ _ _ _ _ Hs) as (t & Ht).
    destruct (r_ll0 (ex_intro _ t Ht)) as ((t' & Ht') & r_reps0). split; [|cbn; now rewrite r_reps0].
    destruct (ll_shape_spec c t W Ht) as (E1 & E2 & E3). destruct (ll_shape_spec c' t' r_wf0 Ht') as (F1 & F2 & F3).
    cbn in Hs |- *. rewrite Ht in Hs. rewrite Ht'. cbn in Hs |- *.
    rewrite F1, F2, !bcast_same. cbn. rewrite F3, r_reps0. rewrite E1, E2, !bcast_same in Hs. cbn in Hs. rewrite E3 in Hs.
    destruct (bcast (ll_reps c) rr); [cbn; eauto|discriminate].
  - intros j o r x Hj HP. rewrite !prob_pev, !pev_sum by assumption.
    destruct HP as ((s & Hs) & Hf & Ho & Hr). cbn in Hf, Ho, Hr.
    rewrite r_ch0. apply bsum_ext. intros ci Hci. f_equal.
    + assert (rr = 0 \/ 0 < rr)%nat as [E0|E0] by lia.
      { subst rr. exfalso. destruct (ll_shape_sum _ _ _ _ _ Hs) as (t & Ht).
        destruct (ll_shape_spec c t W Ht) as (G1 & G2 & G3). cbn in Hs. rewrite Ht in Hs. cbn in Hs.
        rewrite G1, G2, !bcast_same in Hs. cbn in Hs. rewrite G3 in Hs. unfold bcast in Hs. cbn in Hs.
        destruct (ll_reps c) as [|[|k]]; cbn in Hr; try lia. discriminate. }
      apply HL; auto.
      destruct (ll_shape_sum _ _ _ _ _ Hs) as (t & Ht).
      destruct (ll_shape_spec c t W Ht) as (G1 & G2 & G3). cbn in Hs. rewrite Ht in Hs. cbn in Hs.
      rewrite G1, G2, !bcast_same in Hs. cbn in Hs. rewrite G3 in Hs. unfold bcast in Hs.
      apply bidx_lt; [assumption|].
      destruct (Nat.eqb_spec (ll_reps c) 1) as [E|E]; [lia|].
      destruct (Nat.eqb_spec (ll_reps c) rr); [lia|]. destruct (Nat.eqb_spec rr 1); [lia|discriminate].
    + destruct (r_ll0 (ll_shape_sum _ _ _ _ _ Hs)) as (_ & r_reps0).
      rewrite <- !prob_pev. rewrite r_reps0. apply r_val0; [assumption|].
      split; [eapply ll_shape_sum; eauto|]. repeat split; auto.
      destruct (Nat.eqb_spec (ll_reps c) 1) as [E|E]; apply bidx_lt; lia.
Qed.

(** Product *)
Lemma keep_single S q : nonempty (kept S q) = true -> keep S [q] = [kept S q] /\ kidx S [q] = [0%nat].
Proof.
  intros H. unfold keep, kidx. cbn [length seq filter nth]. rewrite H. now split.
Qed.

Lemma product_val S c c' : wf c -> aligned c -> rel S c c' ->
  forall ch r x, pos (MProduct c) 0 ch r ->
  bprod (features (out_shape c')) (fun f => prob c' x f ch r)
  = bprod (features (out_shape c)) (fun f => prob c (set_nan S x) f ch r).
Proof.
  intros W A R ch r x HP. pose proof (rel_features S c c' W R) as EF.
  destruct HP as ((s & Hs) & Hf & Hc & Hr). cbn in Hc, Hr.
  assert (forall f, (f < features (out_shape c))%nat -> pos c f ch r) as HPc.
  { intros f Hf'. split; [eapply ll_shape_product; eauto|auto]. }
  rewrite (bprod_list (features (out_shape c)) _ (kidx S (fts c))).
  - rewrite EF. apply bprod_ext. intros j Hj. apply (r_val _ _ _ R); [assumption|]. apply HPc.
    assert (In (nth j (kidx S (fts c)) 0%nat) (kidx S (fts c))) as Hin by now apply nth_In.
    apply kidx_In in Hin. rewrite <- (wf_len c (wf_wf1 c W)). tauto.
  - apply kidx_NoDup.
  - intros i Hi. apply kidx_In in Hi. rewrite <- (wf_len c (wf_wf1 c W)). tauto.
  - intros i Hi Hn. apply prob_all_nan; auto. intros v Hv. apply set_nan_In.
    destruct (in_dec Nat.eq_dec v S) as [|N]; [assumption|]. exfalso. apply Hn. apply kidx_In.
    rewrite (wf_len c (wf_wf1 c W)). split; [assumption|]. exists v. now split.
Qed.

Lemma pjoin_keep S qs : Forall (Sorted.StronglySorted lt) qs -> keep S qs <> [] ->
  pjoin (keep S qs) = kept S (pjoin qs).
Proof.
  intros HS HN. apply ssorted_ext.
  - apply pjoin_sorted. apply Forall_forall. intros q Hq. unfold keep in Hq. apply in_map_iff in Hq.
    destruct Hq as (f & <- & Hf). apply kidx_In in Hf. destruct Hf as [Hf _].
    assert (In (nth f qs []) qs) as Hin by now apply nth_In.
    rewrite Forall_forall in HS. specialize (HS _ Hin). clear - HS.
    induction HS as [|a l Hl IH Ha]; [constructor|]. unfold kept. cbn.
    destruct (negb (memb a S)); [|exact IH]. constructor; [exact IH|].
    apply Forall_forall. intros y Hy. apply filter_In in Hy. rewrite Forall_forall in Ha. now apply Ha.
  - pose proof (pjoin_sorted qs HS) as P. clear - P. induction P as [|a l Hl IH Ha]; [constructor|].
    unfold kept. cbn. destruct (negb (memb a S)); [|exact IH]. constructor; [exact IH|].
    apply Forall_forall. intros y Hy. apply filter_In in Hy. rewrite Forall_forall in Ha. now apply Ha.
  - intros v. rewrite kept_In, !pjoin_In. split.
    + intros (q & Hq & Hv). unfold keep in Hq. apply in_map_iff in Hq. destruct Hq as (f & <- & Hf).
      apply kidx_In in Hf. destruct Hf as [Hf _]. apply kept_In in Hv. destruct Hv as [Hv Hn].
      split; [|assumption]. exists (nth f qs []). split; [now apply nth_In|assumption].
    + intros ((q & Hq & Hv) & Hn). apply In_nth with (d := []) in Hq. destruct Hq as (f & Hf & <-).
      exists (kept S (nth f qs [])). split; [|now apply kept_In]. unfold keep. apply in_map_iff. exists f.
      split; [reflexivity|]. apply kidx_In. eauto.
Qed.

Lemma fts_sorted m : wf m -> Forall (Sorted.StronglySorted lt) (fts m).
Proof.
  intros W. apply Forall_forall. intros q Hq. apply In_nth with (d := []) in Hq. destruct Hq as (f & Hf & <-).
  apply (wf_sorted m (wf_wf1 m W)). now rewrite <- (wf_len m (wf_wf1 m W)).
Qed.

Lemma rel_keep_ne S c c' : wf c -> rel S c c' -> keep S (fts c) <> [].
Proof.
  intros W R E. pose proof (wf_fpos c' (wf_wf1 c' (r_wf _ _ _ R))) as Fp.
  rewrite <- (wf_len c' (wf_wf1 c' (r_wf _ _ _ R))), (r_fts _ _ _ R), E in Fp. cbn in Fp. lia.
Qed.

Lemma product_rel S c c' : wf c -> aligned c -> rel S c c' -> rel S (MProduct c) (MProduct c').
Proof.
  intros W A R. pose proof (rel_keep_ne S c c' W R) as NE.
  pose proof (pjoin_keep S (fts c) (fts_sorted c W) NE) as EJ.
  assert (nonempty (kept S (pjoin (fts c))) = true) as NK.
  { rewrite <- EJ. apply nonempty_spec. intros E.
    pose proof (wf_qpos (MProduct c') (wf_wf1 (MProduct c') (r_wf _ _ _ R)) 0%nat ltac:(cbn; lia)) as Q.
    unfold nthq in Q. cbn in Q. rewrite (r_fts _ _ _ R) in Q. congruence. }
  destruct (keep_single S (pjoin (fts c)) NK) as [K1 K2].
  pose proof (product_val S c c' W A R) as PV.
  destruct R. split; cbn [fts scope_of]; auto.
  - now rewrite K1, r_fts0, EJ.
  - intros (s & Hs). destruct (ll_shape_product _ _ Hs) as (t & Ht).
    destruct (r_ll0 (ex_intro _ t Ht)) as ((t' & Ht') & r_reps0). split; [|exact r_reps0].
    cbn. rewrite Ht'. cbn. eauto.
  - intros j ch r x Hj HP. rewrite K2 in *. cbn in Hj. assert (j = 0%nat) as -> by lia. cbn [nth] in *.
    rewrite !prob_pev, !pev_product. now apply PV.
Qed.

Lemma product_prune_rel S c c' : wf c -> aligned c -> rel S c c' -> features (out_shape c') = 1%nat -> rel S (MProduct c) c'.
Proof.
  intros W A R F1. pose proof (rel_keep_ne S c c' W R) as NE.
  pose proof (pjoin_keep S (fts c) (fts_sorted c W) NE) as EJ.
  assert (nonempty (kept S (pjoin (fts c))) = true) as NK.
  { rewrite <- EJ. apply nonempty_spec. intros E.
    pose proof (wf_qpos (MProduct c') (wf_wf1 (MProduct c') (r_wf _ _ _ R)) 0%nat ltac:(cbn; lia)) as Q.
    unfold nthq in Q. cbn in Q. rewrite (r_fts _ _ _ R) in Q. congruence. }
  destruct (keep_single S (pjoin (fts c)) NK) as [K1 K2].
  pose proof (product_val S c c' W A R) as PV. rewrite F1 in PV.
  pose proof (wf_len c' (wf_wf1 c' (r_wf _ _ _ R))) as L1. rewrite F1 in L1.
  destruct R. split; cbn [fts scope_of]; auto.
  - rewrite K1, <- EJ, <- r_fts0. destruct (fts c') as [|q [|q' l]]; cbn in L1; try lia. reflexivity.
  - intros (s & Hs). apply r_ll0. eapply ll_shape_product; eauto.
  - intros j ch r x Hj HP. rewrite K2 in *. cbn in Hj. assert (j = 0%nat) as -> by lia. cbn [nth] in *.
    rewrite (prob_pev (MProduct c)), pev_product.
    change (prob c' x 0 ch r = bprod (features (out_shape c)) (fun f => prob c (set_nan S x) f ch r)).
    rewrite <- PV by assumption. cbn. lra.
Qed.

(** Cat *)
Inductive crel (S : list nat) : list module -> list module -> Prop :=
| crel_nil : crel S [] []
| crel_skip c cs cs' : covered S c -> crel S cs cs' -> crel S (c :: cs) cs'
| crel_take c c' cs cs' : rel S c c' -> crel S cs cs' -> crel S (c :: cs) (c' :: cs').

Lemma covered_kidx S c : wf c -> covered S c -> kidx S (fts c) = [].
Proof.
  intros W H. apply kidx_none. intros q v Hq Hv. apply H. apply In_nth with (d := []) in Hq.
  destruct Hq as (f & Hf & <-). now apply (fts_in_query c f).
Qed.

Lemma crel_fts S cs cs' : Forall wf cs -> crel S cs cs' -> concat (map fts cs') = keep S (concat (map fts cs)).
Proof.
  intros W H. induction H as [|c cs cs' Hc H IH|c c' cs cs' R H IH]; [reflexivity| |]; inversion W; subst; cbn [map concat]; rewrite keep_app.
  - unfold keep at 1. rewrite covered_kidx by assumption. cbn. auto.
  - now rewrite (r_fts _ _ _ R), IH.
Qed.

Lemma crel_In S cs cs' c' : crel S cs cs' -> In c' cs' -> exists c, In c cs /\ rel S c c'.
Proof.
  intros H. induction H as [|c cs cs' Hc H IH|c d cs cs' R H IH]; intros Hin; [destruct Hin| |].
  - destruct (IH Hin) as (a & A & B). exists a; split; [now right|assumption].
  - destruct Hin as [<-|Hin]; [exists c; split; [now left|assumption]|].
    destruct (IH Hin) as (a & A & B). exists a; split; [now right|assumption].
Qed.

Lemma crel_cover S cs cs' c v : crel S cs cs' -> In c cs -> In v (query (scope_of c)) -> ~ In v S ->
  exists c', In c' cs' /\ In v (query (scope_of c')).
Proof.
  intros H. induction H as [|d cs cs' Hc H IH|d c' cs cs' R H IH]; intros Hin Hv Hn; [destruct Hin| |].
  - destruct Hin as [<-|Hin]; [exfalso; auto|auto].
  - destruct Hin as [<-|Hin].
    + exists c'. split; [now left|]. apply (r_q _ _ _ R). now split.
    + destruct (IH Hin Hv Hn) as (a & A & B). exists a; split; [now right|assumption].
Qed.

Lemma crel_disj S cs cs' : crel S cs cs' -> ForallOrdPairs disjoint_scopes (map scope_of cs) ->
  ForallOrdPairs disjoint_scopes (map scope_of cs').
Proof.
  intros H. induction H as [|c cs cs' Hc H IH|c c' cs cs' R H IH]; intros D; cbn in *; inversion D; subst; auto.
  - constructor; [|auto]. apply Forall_forall. intros s Hs. apply in_map_iff in Hs. destruct Hs as (d' & <- & Hd').
    destruct (crel_In _ _ _ _ H Hd') as (d & Hd & Rd).
    intros v Hv Hv'. apply (r_q _ _ _ R) in Hv. apply (r_q _ _ _ Rd) in Hv'.
    match goal with F : Forall _ (map scope_of cs) |- _ => rewrite Forall_forall in F; apply (F (scope_of d) (in_map _ _ _ Hd) v) end; tauto.
Qed.

Lemma crel_val1 S cs cs' : Forall wf cs -> crel S cs cs' -> forall ch r x,
  (forall c f, In c cs -> (f < features (out_shape c))%nat -> pos c f ch r) ->
  forall j, (j < length (kidx S (concat (map fts cs))))%nat ->
  pr (catpick false (map (fun c => (out_shape c, evalm (leaf_score x) c)) cs') j ch r)
  = pr (catpick false (map (fun c => (out_shape c, evalm (leaf_score (set_nan S x)) c)) cs)
         (nth j (kidx S (concat (map fts cs))) 0%nat) ch r).
Proof.
  intros W H. induction H as [|c cs cs' Hc H IH|c c' cs cs' R H IH]; intros ch r x HP j Hj.
  - cbn in Hj. lia.
  - inversion W as [|? ? W1 W2]; subst. cbn [map concat] in *. rewrite kidx_app, covered_kidx in * by assumption.
    cbn [app] in *. rewrite map_length in Hj. rewrite (nth_map_lt _ _ j 0%nat) by assumption.
    cbn [catpick]. rewrite (wf_len c (wf_wf1 c W1)).
    destruct (Nat.ltb_spec (features (out_shape c) + nth j (kidx S (concat (map fts cs))) 0%nat) (features (out_shape c))); [lia|].
    replace (_ + _ - _)%nat with (nth j (kidx S (concat (map fts cs))) 0%nat) by lia.
    apply IH; auto. intros; apply HP; auto. now right.
  - inversion W as [|? ? W1 W2]; subst. cbn [map concat] in *. rewrite kidx_app in *.
    cbn [catpick]. rewrite (rel_features S c c' W1 R).
    rewrite app_length, map_length in Hj.
    destruct (Nat.ltb_spec j (length (kidx S (fts c)))) as [L|L].
    + rewrite app_nth1 by assumption.
      assert (In (nth j (kidx S (fts c)) 0%nat) (kidx S (fts c))) as Hin by now apply nth_In.
      apply kidx_In in Hin. destruct Hin as [Hin _]. rewrite (wf_len c (wf_wf1 c W1)) in Hin.
      destruct (Nat.ltb_spec (nth j (kidx S (fts c)) 0%nat) (features (out_shape c))); [|lia].
      apply (r_val _ _ _ R); [assumption|]. apply HP; [now left|assumption].
    + rewrite app_nth2 by assumption. rewrite (nth_map_lt _ _ _ 0%nat) by lia.
      rewrite (wf_len c (wf_wf1 c W1)).
      destruct (Nat.ltb_spec (features (out_shape c) + nth (j - length (kidx S (fts c))) (kidx S (concat (map fts cs))) 0%nat) (features (out_shape c))); [lia|].
      replace (_ + _ - _)%nat with (nth (j - length (kidx S (fts c))) (kidx S (concat (map fts cs))) 0%nat) by lia.
      apply IH; [assumption| |lia]. intros; apply HP; auto. now right.
Qed.

Lemma crel_val2 S fs cs cs' : Forall wf cs -> Forall2 (rel S) cs cs' -> (forall c, In c cs -> fts c = fs) ->
  forall r x j, (j < length (kidx S fs))%nat ->
  (forall c k, In c cs -> (k < channels (out_shape c))%nat -> pos c (nth j (kidx S fs) 0%nat) k r) ->
  forall ch,
  pr (catpick true (map (fun c => (out_shape c, evalm (leaf_score x) c)) cs') j ch r)
  = pr (catpick true (map (fun c => (out_shape c, evalm (leaf_score (set_nan S x)) c)) cs)
         (nth j (kidx S fs) 0%nat) ch r).
Proof.
  intros W H. induction H as [|c c' cs cs' R H IH]; intros HE r x j Hj HP ch; [reflexivity|].
  inversion W as [|? ? W1 W2]; subst. cbn [map catpick]. rewrite (r_ch _ _ _ R).
  destruct (Nat.ltb_spec ch (channels (out_shape c))) as [L|L].
  - assert (fts c = fs) as E by (apply HE; now left). rewrite <- E in *.
    apply (r_val _ _ _ R); [assumption|]. apply HP; [now left|assumption].
  - apply IH; auto.
    + intros; apply HE; now right.
    + intros; apply HP; [now right|assumption].
Qed.

Lemma nsum_channels S cs cs' : Forall2 (rel S) cs cs' ->
  nsum (map (fun c => channels (out_shape c)) cs') = nsum (map (fun c => channels (out_shape c)) cs).
Proof. intros H. induction H as [|c c' cs cs' R H IH]; [reflexivity|]. cbn. now rewrite (r_ch _ _ _ R), IH. Qed.

Lemma crel_Forall2 S cs cs' : (forall c, In c cs -> ~ covered S c) -> crel S cs cs' -> Forall2 (rel S) cs cs'.
Proof.
  intros H C. induction C as [|c cs cs' Hc C IH|c c' cs cs' R C IH].
  - constructor.
  - exfalso. apply (H c); [now left|assumption].
  - constructor; [assumption|]. apply IH. intros; apply H; now right.
Qed.

Lemma crel_all_covered S cs cs' : (forall c, In c cs -> covered S c) -> Forall (fun c => wf c) cs -> crel S cs cs' -> cs' = [].
Proof.
  intros H W C. induction C as [|c cs cs' Hc C IH|c c' cs cs' R C IH]; [reflexivity| |]; inversion W; subst.
  - apply IH; auto. intros; apply H; now right.
  - exfalso. apply (rel_keep_ne S c c' ltac:(assumption) R). unfold keep. rewrite covered_kidx; auto. apply H. now left.
Qed.

Definition mgo S prune := fix go (l : list module) : result (list module) :=
                 match l with
                 | [] => Ok []
                 | c :: rest =>
                     bind (marg S prune c) (fun oc =>
                     bind (go rest) (fun r => Ok (match oc with Some c' => c' :: r | None => r end)))
                 end.

(** what marginalize must return *)
Definition margspec S m (o : option module) : Prop :=
  match o with None => covered S m | Some m' => ~ covered S m /\ rel S m m' end.

Lemma mgo_spec S prune cs :
  Forall (fun c => exists o, marg S prune c = Ok o /\ margspec S c o) cs ->
  exists cs', mgo S prune cs = Ok cs' /\ crel S cs cs'.
Proof.
  induction cs as [|c cs IH]; intros H.
  - exists []. split; [reflexivity|constructor].
  - inversion H as [|? ? (o & E & M) H2]; subst. destruct (IH H2) as (cs' & E' & C).
    cbn [mgo]. fold (mgo S prune). rewrite E. cbn [bind]. rewrite E'. cbn [bind].
    destruct o as [c'|]; (eexists; split; [reflexivity|]).
    + apply crel_take; [apply M|assumption].
    + apply crel_skip; assumption.
Qed.

Lemma not_covered_ex S m : ~ covered S m -> exists v, In v (query (scope_of m)) /\ ~ In v S.
Proof.
  intros H. destruct (covers S (scope_of m)) eqn:E.
  - exfalso. apply H. intros v Hv. now apply (proj1 (covers_spec S (scope_of m))).
  - destruct (existsb (fun v => negb (memb v S)) (query (scope_of m))) eqn:X.
    + apply existsb_exists in X. destruct X as (v & A & B). exists v. split; [assumption|].
      apply memb_false. now apply negb_true_iff.
    + exfalso. apply H. intros v Hv. destruct (in_dec Nat.eq_dec v S) as [|N]; [assumption|].
      exfalso. assert (existsb (fun v => negb (memb v S)) (query (scope_of m)) = true); [|congruence].
      apply existsb_exists. exists v. split; [assumption|]. apply negb_true_iff. now apply memb_false.
Qed.

(** Cat over channels, all inputs kept *)
Lemma cat2_rel S sc cs cs' c0' rest' : wf (MCat true sc cs) -> aligned (MCat true sc cs) ->
  Forall2 (rel S) cs cs' -> cs' = c0' :: rest' ->
  mk_cat true cs' = Ok (MCat true (scope_of c0') cs') /\ rel S (MCat true sc cs) (MCat true (scope_of c0') cs').
Proof.
  intros W A F2 Ecs'. pose proof (wf_cat_children _ _ _ W) as Wc. pose proof (aligned_cat_children _ _ _ A) as Ac.
  pose proof W as W'. cbn in W'. destruct W' as (Hne & _ & HF & Heq & Hsc).
  destruct A as [_ Al]. specialize (Al eq_refl).
  assert (exists fs, (forall c, In c cs -> fts c = fs) /\ fts (MCat true sc cs) = fs) as (fs & Efs & Efm).
  { exists (hd [] (map fts cs)). rewrite Forall_forall in Al. split; [exact Al|reflexivity]. }
  assert (forall c', In c' cs' -> exists c, In c cs /\ rel S c c') as Hin.
  { clear - F2. induction F2 as [|c c' cs cs' R F IH]; intros d Hd; [destruct Hd|].
    destruct Hd as [<-|Hd]; [exists c; split; [now left|assumption]|].
    destruct (IH d Hd) as (a & X & Y). exists a; split; [now right|assumption]. }
  assert (Forall wf cs') as Wc'.
  { apply Forall_forall. intros c' Hc'. destruct (Hin c' Hc') as (c & _ & R). apply R. }
  assert (forall c' d', In c' cs' -> In d' cs' -> features (out_shape c') = features (out_shape d')) as FE.
  { intros c' d' Hc' Hd'. destruct (Hin c' Hc') as (c & Hc & R), (Hin d' Hd') as (d & Hd & Rd).
    rewrite Forall_forall in Wc.
    rewrite (rel_features S c c'), (rel_features S d d'); auto. now rewrite !Efs. }
  assert (forall c' d', In c' cs' -> In d' cs' -> scope_eqb (scope_of c') (scope_of d') = true) as SE.
  { intros c' d' Hc' Hd'. destruct (Hin c' Hc') as (c & Hc & R), (Hin d' Hd') as (d & Hd & Rd).
    apply scope_eqb_spec. rewrite (r_ev _ _ _ R), (r_ev _ _ _ Rd). split; [|tauto].
    intros v. rewrite (r_q _ _ _ R), (r_q _ _ _ Rd). specialize (Heq c d Hc Hd). apply scope_eqb_spec in Heq.
    destruct Heq as [Q _]. rewrite (Q v). tauto. }
  assert (In c0' cs') as H0 by (subst; now left).
  assert (mk_cat true cs' = Ok (MCat true (scope_of c0') cs')) as MK.
  { subst cs'. apply mk_cat_true_intro; intros; auto. }
  split; [assumption|].
  destruct (mk_cat_ok _ _ _ Wc' MK) as (sc' & Em & Wm). 
  destruct (Hin c0' H0) as (c0 & Hc0 & R0).
  assert (hd [] (map fts cs') = fts c0') as Ehd by (subst; reflexivity).
  assert (fts (MCat true (scope_of c0') cs') = keep S fs) as Efm'.
  { cbn [fts]. rewrite Ehd, (r_fts _ _ _ R0), Efs; auto. }
  split; auto.
  - cbn [aligned]. split.
    + apply go_Forall, Forall_forall. intros c' Hc'. destruct (Hin c' Hc') as (c & _ & R). apply R.
    + intros _. apply Forall_forall. intros c' Hc'. destruct (Hin c' Hc') as (c & Hc & R).
      rewrite Ehd, (r_fts _ _ _ R), (r_fts _ _ _ R0), !Efs; auto.
  - now rewrite Efm, Efm'.
  - rewrite !out_shape_cat2. now apply nsum_channels with (S := S).
  - cbn [scope_of]. intros v. rewrite (r_q _ _ _ R0), Hsc.
    assert (In (hd (MCat true sc []) cs) cs) as Hh by (clear - Hne; destruct cs; [congruence|now left]).
    specialize (Heq c0 _ Hc0 Hh). apply scope_eqb_spec in Heq. destruct Heq as [Q _]. rewrite (Q v). tauto.
  - cbn [scope_of]. apply R0.
  - intros (s & Hs). pose proof (ll_shape_cat _ _ _ _ Wc Hs) as Hch.
    split; [|rewrite <- (proj2 (Hch c0 Hc0)), <- (proj2 (r_ll _ _ _ R0 (proj1 (Hch c0 Hc0)))); subst cs'; reflexivity].
    destruct (cat_go_intro true c0' rest') as (s' & Es' & _); [|exists s'; subst cs'; exact Es'].
    rewrite <- Ecs'. intros c' Hc'. destruct (Hin c' Hc') as (c & Hc & R).
    destruct (Hch c Hc) as [L1 L2]. destruct (r_ll _ _ _ R L1) as ((t' & Ht') & RR). exists t'. split; [assumption|].
    intros t0 Ht0.
    destruct (ll_shape_spec c' t' (r_wf _ _ _ R) Ht') as (G1 & G2 & G3).
    destruct (ll_shape_spec c0' t0 (r_wf _ _ _ R0) Ht0) as (K1 & K2 & K3).
    destruct (Hch c0 Hc0) as [L0 L3]. destruct (r_ll _ _ _ R0 L0) as (_ & RR0).
    rewrite G3, K3, RR, RR0, G1, K1. split; [congruence|auto].
  - intros j ch r x Hj HP. rewrite Efm in *. rewrite !prob_pev. unfold pev. cbn [evalm].
    apply crel_val2; auto. intros c k Hc Hk.
    destruct HP as ((s & Hs) & Hf & Hch' & Hr). destruct (ll_shape_cat _ _ _ _ Wc Hs c Hc) as [L1 L2].
    repeat split; auto; [|now rewrite L2].
    rewrite Forall_forall in HF. rewrite (HF c Hc). clear - Hf Hne. destruct cs; [congruence|exact Hf].
Qed.

(** Cat over features *)
Lemma cat1_rel S sc cs cs' c0' rest' : wf (MCat false sc cs) -> aligned (MCat false sc cs) ->
  crel S cs cs' -> cs' = c0' :: rest' ->
  exists sc', mk_cat false cs' = Ok (MCat false sc' cs') /\ rel S (MCat false sc cs) (MCat false sc' cs').
Proof.
  intros W A C Ecs'. pose proof (wf_cat_children _ _ _ W) as Wc. pose proof (aligned_cat_children _ _ _ A) as Ac.
  pose proof W as W'. cbn in W'. destruct W' as (Hne & _ & HF & HD & Hv & HU).
  pose proof (fun c' => crel_In S cs cs' c' C) as Hin.
  assert (Forall wf cs') as Wc'.
  { apply Forall_forall. intros c' Hc'. destruct (Hin c' Hc') as (c & _ & R). apply R. }
  assert (forall c, In c cs -> channels (out_shape c) = channels (out_shape (MCat false sc cs))) as HFc.
  { intros c Hc. rewrite Forall_forall in HF. rewrite (HF c Hc). clear - Hne. destruct cs; [congruence|reflexivity]. }
  assert (forall c', In c' cs' -> channels (out_shape c') = channels (out_shape (MCat false sc cs))) as CE.
  { intros c' Hc'. destruct (Hin c' Hc') as (c & Hc & R). rewrite (r_ch _ _ _ R). auto. }
  assert (In c0' cs') as H0 by (subst; now left).
  assert (exists sc', mk_cat false cs' = Ok (MCat false sc' cs')) as (sc' & MK).
  { rewrite Ecs'. apply mk_cat_false_intro; rewrite <- Ecs'.
    - assumption.
    - intros c Hc. now rewrite (CE c Hc), (CE c0' H0).
    - eapply crel_disj; eauto. }
  exists sc'. split; [assumption|].
  destruct (mk_cat_ok _ _ _ Wc' MK) as (sc'' & Em & Wm). injection Em as <-.
  destruct (Hin c0' H0) as (c0 & Hc0 & R0).
  pose proof Wm as Wm'. cbn in Wm'. destruct Wm' as (_ & _ & _ & _ & [Hv1 Hv2] & HU').
  assert (fts (MCat false sc' cs') = keep S (fts (MCat false sc cs))) as EF by (cbn [fts]; now apply crel_fts).
  split; auto.
  - cbn [aligned]. split; [|congruence].
    apply go_Forall, Forall_forall. intros c' Hc'. destruct (Hin c' Hc') as (c & _ & R). apply R.
  - rewrite <- (CE c0' H0). subst cs'. reflexivity.
  - cbn [scope_of]. intros v. rewrite HU', HU. split.
    + intros (c' & Hc' & Hq). destruct (Hin c' Hc') as (c & Hc & R). apply (r_q _ _ _ R) in Hq.
      split; [exists c; tauto|tauto].
    + intros ((c & Hc & Hq) & Hn). eapply crel_cover; eauto.
  - cbn [scope_of]. destruct (evidence sc') as [|v e]; [reflexivity|].
    destruct (Hv2 v (or_introl eq_refl)) as (c' & Hc' & Hx). destruct (Hin c' Hc') as (c & Hc & R).
    rewrite (r_ev _ _ _ R) in Hx. destruct Hx.
  - intros (s & Hs). pose proof (ll_shape_cat _ _ _ _ Wc Hs) as Hch.
    split; [|rewrite <- (proj2 (Hch c0 Hc0)), <- (proj2 (r_ll _ _ _ R0 (proj1 (Hch c0 Hc0)))); subst cs'; reflexivity].
    destruct (cat_go_intro false c0' rest') as (s' & Es' & _); [|exists s'; subst cs'; exact Es'].
    rewrite <- Ecs'. intros c' Hc'. destruct (Hin c' Hc') as (c & Hc & R).
    destruct (Hch c Hc) as [L1 L2]. destruct (r_ll _ _ _ R L1) as ((t' & Ht') & RR). exists t'. split; [assumption|].
    intros t0 Ht0.
    destruct (ll_shape_spec c' t' (r_wf _ _ _ R) Ht') as (G1 & G2 & G3).
    destruct (ll_shape_spec c0' t0 (r_wf _ _ _ R0) Ht0) as (K1 & K2 & K3).
    destruct (Hch c0 Hc0) as [L0 L3]. destruct (r_ll _ _ _ R0 L0) as (_ & RR0).
    rewrite G3, K3, RR, RR0, G2, K2. split; [congruence|]. now rewrite (CE c' Hc'), (CE c0' H0).
  - intros j ch r x Hj HP. rewrite !prob_pev. unfold pev. cbn [evalm].
    cbn [fts] in *. apply crel_val1; auto. intros c f Hc Hf'.
    destruct HP as ((s & Hs) & Hf & Hch' & Hr). destruct (ll_shape_cat _ _ _ _ Wc Hs c Hc) as [L1 L2].
    repeat split; auto; [|now rewrite L2]. now rewrite HFc.
Qed.

(** a single surviving input replaces the Cat *)
Lemma cat1_single_rel S sc cs c0' : wf (MCat false sc cs) -> aligned (MCat false sc cs) ->
  crel S cs [c0'] -> rel S (MCat false sc cs) c0'.
Proof.
  intros W A C. destruct (cat1_rel S sc cs [c0'] c0' [] W A C eq_refl) as (sc' & MK & R).
  destruct (crel_In _ _ _ _ C (or_introl eq_refl)) as (c0 & Hc0 & R0).
  pose proof (wf_cat_children _ _ _ (r_wf _ _ _ R)) as Wc. inversion Wc as [|? ? W0 _]; subst.
  destruct R. split; auto.
  - apply R0.
  - rewrite <- r_fts0. cbn. now rewrite app_nil_r.
  - intros v. rewrite <- r_q0. cbn [scope_of]. pose proof r_wf0 as X. cbn in X. destruct X as (_ & _ & _ & _ & _ & HU).
    rewrite HU. split; [intros H; exists c0'; split; [now left|assumption]|].
    intros (c & [<-|[]] & H); exact H.
  - apply R0.
  - intros H. destruct (r_ll0 H) as [(s & Hs) E]. cbn in Hs, E. split; [|assumption].
    destruct (ll_shape c0') as [t|]; [eauto|discriminate].
  - intros j ch r x Hj HP. rewrite <- r_val0 by assumption. unfold prob, loglik. cbn [evalm map catpick].
    destruct (Nat.ltb_spec j (features (out_shape c0'))) as [L|L]; [reflexivity|].
    exfalso. rewrite <- (wf_len c0' (wf_wf1 c0' W0)) in L. cbn [fts map concat] in r_fts0, Hj.
    rewrite app_nil_r in r_fts0. rewrite r_fts0, keep_length in L. lia.
Qed.

Lemma cat2_single_rel S sc cs c0' : wf (MCat true sc cs) -> aligned (MCat true sc cs) ->
  Forall2 (rel S) cs [c0'] -> rel S (MCat true sc cs) c0'.
Proof.
  intros W A F2. destruct (cat2_rel S sc cs [c0'] c0' [] W A F2 eq_refl) as (MK & R).
  inversion F2 as [|c0 ? cs0 ? R0 F0]; subst. inversion F0; subst.
  pose proof (r_wf _ _ _ R0) as W0.
  destruct R. split; auto.
  - apply R0.
  - rewrite <- r_ch0. cbn. lia.
  - intros H. destruct (r_ll0 H) as [(s & Hs) E]. cbn in Hs, E. split; [|assumption].
    destruct (ll_shape c0') as [t|]; [eauto|discriminate].
  - intros j ch r x Hj HP. rewrite <- r_val0 by assumption. unfold prob, loglik. cbn [evalm map catpick].
    destruct (Nat.ltb_spec ch (channels (out_shape c0'))) as [L|L]; [reflexivity|].
    exfalso. destruct HP as (_ & _ & Hc & _). rewrite <- r_ch0 in Hc. cbn in Hc. lia.
Qed.

(** ** Main lemma *)
Lemma reps_ok_children d2 sc cs : reps_ok (MCat d2 sc cs) -> Forall reps_ok cs.
Proof. cbn. now rewrite go_Forall. Qed.

Lemma no_evidence_children d2 sc cs : no_evidence (MCat d2 sc cs) -> Forall no_evidence cs.
Proof. cbn. now rewrite go_Forall. Qed.

Lemma sum_weights_pos c co rr lg f i o r : wf c -> 0 < wv (sum_weights c co rr lg) f i o r.
Proof. intros W. cbn. apply softmax_pos, wf_cpos, wf_wf1, W. Qed.

Lemma sum_weights_sum c co rr lg f o r : wf c -> bsum (channels (out_shape c)) (fun i => wv (sum_weights c co rr lg) f i o r) = 1.
Proof. intros W. cbn. apply softmax_sum, wf_cpos, wf_wf1, W. Qed.

Lemma marg_spec S prune m : wf m -> aligned m -> reps_ok m -> no_evidence m ->
  exists o, marg S prune m = Ok o /\ margspec S m o.
Proof.
  induction m as [l|c co rr lg IH|d2 sc cs IH|c IH] using module_ind'; intros W A RO NE.
  - cbn [marg]. destruct (nonempty (kept S (query (l_scope l)))) eqn:E.
    + exists (Some (MLeaf (leaf_marg S l))). split; [reflexivity|]. split; [|now apply leaf_rel].
      intros C. apply nonempty_kept in E. destruct E as (v & Hv & Hn). apply Hn, C, Hv.
    + exists None. split; [reflexivity|]. intros v Hv. destruct (in_dec Nat.eq_dec v S) as [|N]; [assumption|].
      exfalso. assert (nonempty (kept S (query (l_scope l))) = true); [|congruence].
      apply nonempty_kept. eauto.
  - cbn [marg]. cbn in W, A, RO, NE. destruct W as [W Hco], RO as [RO Hrr].
    destruct (covers S (scope_of c)) eqn:EC.
    { exists None. split; [reflexivity|]. intros v Hv. now apply (proj1 (covers_spec S (scope_of c))). }
    assert (~ covered S (MSum c co rr lg)) as NC.
    { intros C. assert (covers S (scope_of c) = true); [|congruence]. apply covers_spec. exact C. }
    destruct (touches S (scope_of c)) eqn:ET.
    + destruct (IH W A RO NE) as (o & E & M). rewrite E. cbn [bind].
      destruct o as [c'|]; [|exfalso; apply NC; exact M].
      destruct M as [_ R].
      destruct (Nat.ltb_spec (fts_cols c) rr); [lia|]. destruct (Nat.eqb_spec rr 0); [lia|]. cbn [orb].
      rewrite mk_sum_w_intro.
      * cbn [bind]. eexists. split; [reflexivity|]. split; [assumption|]. cbn [wO wR mask_weights sum_weights].
        apply sum_rel; auto. intros f o r i Hf Ho Hr Hi. cbn [wv mask_weights sum_weights].
        apply (softmax_ln (channels (out_shape c)) (fun i => softmax (channels (out_shape c)) (fun j => lg (nth f (kidx S (fts c)) 0%nat) j o r) i)); auto.
        -- intros; apply softmax_pos, wf_cpos, wf_wf1, W.
        -- apply softmax_sum, wf_cpos, wf_wf1, W.
      * exact Hco.
      * cbn. symmetry. now apply rel_features.
      * cbn. symmetry. apply R.
      * intros. now apply (sum_weights_pos c co rr lg).
      * intros. now apply (sum_weights_sum c co rr lg).
    + rewrite mk_sum_w_intro.
      * cbn [bind]. eexists. split; [reflexivity|]. split; [assumption|]. cbn [wO wR sum_weights].
        pose proof (touches_false _ _ ET) as TF.
        apply sum_rel; auto.
        -- apply rel_refl; auto. now apply no_evidence_scope.
        -- intros f o r i Hf Ho Hr Hi. cbn [wv sum_weights].
           destruct (untouched_kidx S c W TF) as [E1 _]. rewrite E1 in *. rewrite seq_length in Hf.
           rewrite seq_nth by assumption. cbn [Nat.add].
           apply (softmax_ln (channels (out_shape c)) (fun i => softmax (channels (out_shape c)) (fun j => lg f j o r) i)); auto.
           ++ intros; apply softmax_pos, wf_cpos, wf_wf1, W.
           ++ apply softmax_sum, wf_cpos, wf_wf1, W.
      * exact Hco.
      * reflexivity.
      * reflexivity.
      * intros. now apply (sum_weights_pos c co rr lg).
      * intros. now apply (sum_weights_sum c co rr lg).
  - cbn [marg]. fold (mgo S prune).
    destruct (touches S sc) eqn:ET.
    2:{ exists (Some (MCat d2 sc cs)). split; [reflexivity|]. pose proof (touches_false _ _ ET) as TF.
        assert (~ covered S (MCat d2 sc cs)) as NC.
        { intros C. pose proof (wf_fpos _ (wf_wf1 _ W)) as Fp. pose proof (wf_qpos _ (wf_wf1 _ W) 0%nat Fp) as Q.
          destruct (nthq (MCat d2 sc cs) 0) as [|v q] eqn:Eq; [congruence|].
          assert (In v (query (scope_of (MCat d2 sc cs)))) as Hv.
          { apply (wf_union _ (wf_wf1 _ W)). exists 0%nat. split; [assumption|]. rewrite Eq. now left. }
          apply (TF v Hv). now apply C. }
        split; [assumption|]. apply rel_refl; auto. now apply no_evidence_scope. }
    pose proof (wf_cat_children _ _ _ W) as Wc. pose proof (aligned_cat_children _ _ _ A) as Ac.
    pose proof (reps_ok_children _ _ _ RO) as Rc. pose proof (no_evidence_children _ _ _ NE) as Nc.
    destruct (mgo_spec S prune cs) as (cs' & E & C).
    { rewrite Forall_forall in *. intros c Hc. apply IH; auto. }
    rewrite E. cbn [bind].
    pose proof W as W'. cbn in W'. destruct W' as (Hne & _ & W').
    assert (cs' = [] -> covered S (MCat d2 sc cs)) as HN.
    { intros ->. intros v Hv. destruct (in_dec Nat.eq_dec v S) as [|N]; [assumption|]. exfalso.
      assert (exists c, In c cs /\ In v (query (scope_of c))) as (c & Hc & Hq).
      { destruct d2.
        - destruct W' as (_ & _ & Hsc). cbn in Hv. rewrite Hsc in Hv. exists (hd (MCat true sc []) cs).
          split; [clear - Hne; destruct cs; [congruence|now left]|assumption].
        - destruct W' as (_ & _ & _ & HU). now apply HU. }
      destruct (crel_cover S cs [] c v C Hc Hq N) as (c' & [] & _). }
    destruct d2.
    + destruct W' as (HF & Heq & Hsc).
      assert (forall c, In c cs -> (covered S c <-> covered S (MCat true sc cs))) as CV.
      { intros c Hc.
        assert (In (hd (MCat true sc []) cs) cs) as Hh by (clear - Hne; destruct cs; [congruence|now left]).
        specialize (Heq c _ Hc Hh). apply scope_eqb_spec in Heq. destruct Heq as [Q _].
        unfold covered. cbn [scope_of]. rewrite Hsc. split; intros H v Hv; apply H, Q, Hv. }
      destruct (covers S sc) eqn:EC.
      * assert (covered S (MCat true sc cs)) as CC by (intros v Hv; now apply (proj1 (covers_spec S sc))).
        assert (cs' = []) as -> by (eapply crel_all_covered; eauto; intros; now apply CV).
        exists None. now split.
      * assert (~ covered S (MCat true sc cs)) as NC.
        { intros X. assert (covers S sc = true); [|congruence]. apply covers_spec. exact X. }
        assert (Forall2 (rel S) cs cs') as F2.
        { apply crel_Forall2; [|assumption]. intros c Hc X. apply NC. now apply (CV c Hc). }
        destruct cs' as [|c0' rest'] eqn:Ecs'; [exfalso; auto|].
        destruct (cat2_rel S sc cs (c0' :: rest') c0' rest' W A F2 eq_refl) as [MK R].
        destruct rest' as [|c1' rest''].
        -- destruct prune.
           ++ eexists. split; [reflexivity|]. split; [assumption|]. now apply cat2_single_rel.
           ++ rewrite MK. cbn [bind]. eexists. split; [reflexivity|]. now split.
        -- rewrite MK. cbn [bind]. eexists. split; [reflexivity|]. now split.
    + destruct cs' as [|c0' rest'] eqn:Ecs'; [exists None; split; [reflexivity|now apply HN]|].
      assert (~ covered S (MCat false sc cs)) as NC.
      { intros X. assert (c0' :: rest' = []) as Y; [|discriminate]. eapply crel_all_covered; [|exact Wc|exact C].
        intros c Hc v Hv. apply X. cbn. apply W'. eauto. }
      destruct (cat1_rel S sc cs (c0' :: rest') c0' rest' W A C eq_refl) as (sc' & MK & R).
      destruct rest' as [|c1' rest''].
      * destruct prune.
        -- eexists. split; [reflexivity|]. split; [assumption|]. now apply cat1_single_rel.
        -- rewrite MK. cbn [bind]. eexists. split; [reflexivity|]. now split.
      * rewrite MK. cbn [bind]. eexists. split; [reflexivity|]. now split.
  - cbn [marg]. cbn in W, A, RO, NE.
    destruct (covers S (scope_of c)) eqn:EC.
    { exists None. split; [reflexivity|]. intros v Hv. now apply (proj1 (covers_spec S (scope_of c))). }
    assert (~ covered S (MProduct c)) as NC.
    { intros C. assert (covers S (scope_of c) = true); [|congruence]. apply covers_spec. exact C. }
    assert (exists c', (if touches S (scope_of c) then marg S prune c else Ok (Some c)) = Ok (Some c') /\ rel S c c') as (c' & E & R).
    { destruct (touches S (scope_of c)) eqn:ET.
      - destruct (IH W A RO NE) as (o & E & M). destruct o as [c'|]; [|exfalso; apply NC; exact M].
        exists c'. split; [assumption|apply M].
      - exists c. split; [reflexivity|]. apply rel_refl; auto; [now apply no_evidence_scope|].
        now apply touches_false. }
    rewrite E. cbn [bind].
    destruct (prune && Nat.eqb (features (out_shape c')) 1)%bool eqn:EP.
    + apply andb_true_iff in EP. destruct EP as [_ EP]. apply Nat.eqb_eq in EP.
      eexists. split; [reflexivity|]. split; [assumption|]. now apply product_prune_rel.
    + cbn [mk_product bind]. eexists. split; [reflexivity|]. split; [assumption|]. now apply product_rel.
Qed.
