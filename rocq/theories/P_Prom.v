(** Properties C41, C132-C135: learn_prometheus. *)
From Coq Require Import List Arith Bool Reals Lia Lra Sorted Permutation.
From Verif Require Import Base ScopeModel ScopeProofs CircuitModel CircuitSpec CircuitBasics CircuitEval CircuitProps Integral CircuitMarg MargProofs
  CircuitExamples PruneSpec LearnModel LearnSpec LearnProofs LearnTop LearnMain CltSpec CnetModel CnetProofs PromModel PromSpec PromGraph PromParts PromTop PromMain PromSample.
Import ListNotations.
Local Open Scope R_scope.

(** ** The decompositions *)
(** For every affinity matrix the decompositions refine each other, one block more each
    time, down to single variables; there are d - 1 of them exactly if all variables are
    joined by nonzero affinities; for a symmetric matrix the blocks are the groups of
    variables joined by affinities above a non-decreasing threshold (where it rises). *)
Theorem C41_partitions : forall d A, (0 < d)%nat -> let Ps := partitions_full d A in
  refining d Ps /\ (length Ps < d)%nat /\
  (length Ps = (d - 1)%nat <-> forall u v, (u < d)%nat -> (v < d)%nat -> joined d A u v) /\
  ((forall i j, A i j = A j i) -> exists ws, length ws = length Ps /\ (forall i, (S i < length Ps)%nat -> nth i ws 0 <= nth (S i) ws 0) /\
     forall i, (i < length Ps)%nat -> ((S i < length Ps)%nat -> nth i ws 0 < nth (S i) ws 0) ->
       forall u v, same_block (nth i Ps []) u v <-> (u < d)%nat /\ (v < d)%nat /\ joined_above d A (nth i ws 0) u v).
Proof. intros d A Hd. destruct (full_spec d A) as (H1 & H2 & H3 & H4). cbn zeta. auto. Qed.
Print Assumptions C41_partitions.

(** With sampled edges there are always d - 1 decompositions, from two blocks to single
    variables; above a non-negative threshold the blocks are the groups joined by sampled
    edges. *)
Theorem C41_partitions_sampled : forall d E, (0 < d)%nat -> edges_ok d E -> let Ps := partitions_sampled d E in
  refining d Ps /\ length Ps = (d - 1)%nat /\
  exists ws, length ws = length Ps /\ (forall i, (S i < length Ps)%nat -> nth i ws 0 <= nth (S i) ws 0) /\
     forall i, (i < length Ps)%nat -> 0 <= nth i ws 0 -> ((S i < length Ps)%nat -> nth i ws 0 < nth (S i) ws 0) ->
       forall u v, same_block (nth i Ps []) u v <-> (u < d)%nat /\ (v < d)%nat /\ above E (nth i ws 0) u v.
Proof. intros d E Hd HE. exact (sampled_spec d E HE Hd). Qed.
Print Assumptions C41_partitions_sampled.

(** Every decomposition has at least two nonempty blocks, each variable in exactly one. *)
Theorem C41_blocks : forall d aff part, (0 < d)%nat -> (forall E, aff = ASampled E -> edges_ok d E) -> In part (partitions d aff) ->
  partition_of d part /\ (2 <= length part)%nat.
Proof. exact part_In. Qed.
Print Assumptions C41_blocks.

(** The sampled edges: exactly the pairs {i, neighbour chosen by i}, each once, smaller
    variable first, with the similarity of the two columns; every variable keeps at least
    as many edges as it chose neighbours. *)
Theorem C41_sampled_edges : forall w d k choice, (2 <= d)%nat -> (1 <= k)%nat -> (forall i c, (i < d)%nat -> In c (choice i) -> (c < d - 1)%nat) ->
  let E := sampled_edges d k choice w in
  edges_ok d E /\ NoDup (map fst E) /\
  (forall a b x, In ((a, b), x) E <-> (a < b)%nat /\ (b < d)%nat /\ x = w a b /\ (In b (map (chosen a) (choice a)) \/ In a (map (chosen b) (choice b)))) /\
  (forall i, (i < d)%nat -> NoDup (choice i) -> (length (choice i) <= length (filter (incident i) E))%nat).
Proof. exact sampled_edges_spec. Qed.
Print Assumptions C41_sampled_edges.
(** the chosen variables are the other variables, each possible *)
Theorem C41_chosen : forall d i, (i < d)%nat ->
  (forall c, (c < d - 1)%nat -> (chosen i c < d)%nat /\ chosen i c <> i) /\ (forall j, (j < d)%nat -> j <> i -> exists c, (c < d - 1)%nat /\ chosen i c = j) /\
  (forall c c', chosen i c = chosen i c' -> c = c').
Proof.
  intros d i Hi. unfold chosen. split; [|split].
  - intros c Hc. destruct (Nat.ltb_spec c i); lia.
  - intros j Hj N. destruct (Nat.lt_ge_cases j i); [exists j|exists (j - 1)%nat]; (split; [lia|]); destruct (Nat.ltb_spec j i), (Nat.ltb_spec (j - 1) i); lia.
  - intros c c'. destruct (Nat.ltb_spec c i), (Nat.ltb_spec c' i); lia.
Qed.
Print Assumptions C41_chosen.
Theorem C41_default_samples : forall d, (2 <= d)%nat -> (1 <= default_samples d)%nat /\ (default_samples d <= d - 1)%nat /\ default_samples d = Nat.log2 d.
Proof. exact default_samples_spec. Qed.
Print Assumptions C41_default_samples.

(** the correlation affinity: symmetric, within [0, 1], one on the diagonal, zero for a
    constant column *)
Theorem C41_corr : forall d data i j,
  0 <= affinity_corr d data i j <= 1 /\ affinity_corr d data i j = affinity_corr d data j i /\ affinity_corr d data i i = 1 /\
  ((2 <= d)%nat -> i <> j -> (exists a, forall x, In x data -> x i = a) -> affinity_corr d data i j = 0).
Proof.
  intros d data i j. split; [apply corr_range|]. split; [apply corr_sym|]. split; [apply corr_diag|]. intros Hd N (a & H). now apply (corr_constant _ _ _ _ a).
Qed.
Print Assumptions C41_corr.

(** ** The learned circuit *)
(** For every clustering, affinity, leaf estimation and random initial weights:
    learn_prometheus raises only if a helper raises; otherwise it returns a valid
    circuit over exactly the requested variables with one output feature and between
    out_channels and out_channels times the leaves' channels; all leaves are estimated
    ones; if these are normalised, so is every output channel. *)
Theorem C41_valid : forall P ps oc minf mini pc fuel data q r,
  sound_poracles P ps -> (1 <= oc)%nat -> (1 <= minf)%nat -> (1 <= mini)%nat -> usable ps pc q -> q <> [] -> NoDup q ->
  learn_prometheus P ps minf mini oc fuel data (Some q) = Some r ->
  (exists m, r = Ok m /\ built m /\ aligned m /\ (forall n, node_of n m -> node_good n) /\
     (exists ch, (oc <= ch <= oc * pc)%nat /\ out_shape m = mkShape 1 ch 1 /\ ll_shape m = Ok (mkShape 1 ch 1)) /\
     (forall v, vars m v <-> In v q) /\ Forall (pfitted P) (leaves_of m) /\
     (forall D, (forall l, pfitted P l -> leaf_norm D l) -> forall c x, (c < channels (out_shape m))%nat ->
        sums_over D (query (scope_of m)) (fun y => prob m y 0 c 0) x 1)) \/
  (r = Err /\ helper_raises P).
Proof.
  intros P ps oc minf mini pc fuel data q r SO Hoc Hf Hi Us Hq ND E. unfold learn_prometheus in E.
  destruct (Nat.ltb_spec oc 1); [lia|]. destruct (Nat.ltb_spec minf 1); [lia|]. destruct (Nat.ltb_spec mini 1); [lia|]. cbn [orb] in E.
  destruct (omapi (fun i _ => plearn P ps minf mini fuel [i] data q) 0 (seq 0 oc)) as [rs|] eqn:EO; [|discriminate].
  destruct (omapi_ok _ (fun _ m => good pc q m /\ Forall (pfitted P) (leaves_of m)) (helper_raises P) _ _ _ EO) as [(ms & -> & F)|[-> HX]].
  { intros i a r' _ Er. pose proof (plearn_ok P ps minf mini pc SO _ _ _ _ _ Hi Us Hq ND Er) as [(m & -> & G)|K]; [left|right; exact K].
    exists m. split; [reflexivity|]. split; [exact G|]. eapply plearn_fitted, Er. }
  2:{ cbn [obind] in E. injection E as <-. right. auto. }
  cbn [obind] in E. left. assert (Lm : length ms = oc) by (rewrite <- (forall2_len _ _ _ F); apply seq_length).
  assert (FG : Forall (good pc q) ms) by (eapply forall2_right; [|exact F]; cbn; tauto).
  assert (FF : Forall (fun m => Forall (pfitted P) (leaves_of m)) ms) by (eapply forall2_right; [|exact F]; cbn; tauto).
  assert (exists m, r = Ok m /\ built m /\ aligned m /\ uniform 1 m /\ features (out_shape m) = 1%nat /\ (forall v, vars m v <-> In v q) /\ evidence (scope_of m) = [] /\
     channels (out_shape m) = nsum (map (fun m => channels (out_shape m)) ms) /\ Forall (pfitted P) (leaves_of m)) as (m & -> & B & A & U & Fe & V & Ev & C & Fi).
  { destruct ms as [|m0 [|m1 ms]]; [cbn in Lm; lia| |].
    - injection E as <-. inversion FG as [|? ? G _]; subst. exists m0. split; [reflexivity|]. do 4 (split; [apply G|]). split; [apply G|]. split; [apply G|]. split; [cbn; lia|]. now inversion FF.
    - set (l := m0 :: m1 :: ms) in *. injection E as <-. destruct (good_cat q pc l ltac:(discriminate) FG) as (sc & Ec & B & A & U & Fe & Ev & V & M & C).
      exists (MCat true sc l). do 8 (split; [assumption|]). rewrite (mk_cat_leaves _ _ _ Ec). apply forall_concat, Forall_map. exact FF. }
  exists m. assert (W : wf m) by (now apply built_wf). destruct (uniform_ll m 1 W U) as [ES ER].
  assert (EO' : out_shape m = mkShape 1 (channels (out_shape m)) 1).
  { destruct (out_shape m) as [a b c] eqn:Es. cbn in *. now subst. }
  split; [reflexivity|]. split; [exact B|]. split; [exact A|]. split; [intros n Hn; eapply c07; [exact B|exact Hn]|].
  split.
  { exists (channels (out_shape m)). split; [|split; [exact EO'|rewrite ES; f_equal; exact EO']]. rewrite C, <- Lm. clear -FG.
    induction FG as [|x l G _ IH]; [cbn; lia|]. cbn [map nsum length]. pose proof (good_ch _ _ _ G). pose proof (g_ch _ _ _ G). lia. }
  split; [exact V|]. split; [exact Fi|].
  intros D HD c x Hc. apply c01_scope with (s := out_shape m); auto.
  - unfold leaves_norm. eapply Forall_impl; [|exact Fi]. exact HD.
  - unfold in_shape. rewrite Fe, ER. split; [lia|]. split; [exact Hc|lia].
Qed.
Print Assumptions C41_valid.

(** learn_prometheus ends, whatever the clustering: at most |scope| + 1 nested calls. *)
Theorem C41_terminates : forall P ps oc minf mini fuel data q,
  sound_poracles P ps -> NoDup q -> (length q < fuel)%nat -> learn_prometheus P ps minf mini oc fuel data (Some q) <> None.
Proof.
  intros P ps oc minf mini fuel data q SO ND HF. unfold learn_prometheus. destruct (_ || _)%bool; [discriminate|].
  destruct (omapi _ 0 (seq 0 oc)) as [[ms|]|] eqn:EO; cbn [obind].
  - destruct ms as [|? [|? ?]]; discriminate.
  - discriminate.
  - exfalso. apply (omapi_some _ _ _) in EO; [exact EO|]. intros i a _. now apply (plearn_ends P ps minf mini SO).
Qed.
Print Assumptions C41_terminates.

(** One step: every cluster of at least two rows gives one product per decomposition, over
    circuits learned on the cluster's rows and the blocks' variables; the result is the
    mixture of all products, a product's mass being its cluster's share of the rows divided
    by the cluster's number of decompositions (renormalised, and spread equally over the
    product's channels). *)
Theorem C41_mixture : forall P ps minf mini pc n path data q m,
  sound_poracles P ps -> (1 <= mini)%nat -> usable ps pc q -> q <> [] -> NoDup q -> (minf <= length q)%nat -> (mini <= length data)%nat ->
  plearn P ps minf mini (S n) path data q = Some (Ok m) ->
  let lb := po_clus P path data q in
  exists groups, length groups = length (sortu lb) /\
    (forall k, (k < length groups)%nat -> let cd := rows_of data lb (nth k (sortu lb) 0%nat) in
       cluster_products P (fun c b sub => plearn P ps minf mini n (k :: length c :: c ++ path) cd b = Some (Ok sub)) path k (length data) q cd (nth k groups [])) /\
    (concat groups = [] -> mv_leaf (po_base P) ps path q data = Ok m) /\
    (forall p, concat groups = [p] -> m = snd p) /\
    ((2 <= length (concat groups))%nat -> channels (out_shape m) = 1%nat /\ forall x,
       prob m x 0 0 0 = lsumR (map (fun p => fst p / lsumR (map fst (concat groups)) *
         (bsum (channels (out_shape (snd p))) (fun c => prob (snd p) x 0 c 0) / INR (channels (out_shape (snd p))))) (concat groups))).
Proof. intros P ps minf mini pc n path data q m SO Hi. intros. now apply (plearn_step P ps minf mini pc SO Hi). Qed.
Print Assumptions C41_mixture.

(** Without an explicit scope the union of the leaf modules' variables is requested. *)
Theorem C41_default_scope : forall P ps minf mini oc fuel data, ps <> [] -> Forall (fun p => p_scope p <> [] /\ NoDup (p_scope p)) ps ->
  exists q, q <> [] /\ NoDup q /\ (forall v, In v q <-> exists p, In p ps /\ In v (p_scope p)) /\
    learn_prometheus P ps minf mini oc fuel data None = learn_prometheus P ps minf mini oc fuel data (Some q).
Proof.
  intros P ps minf mini oc fuel data Hps V. set (scs := map (fun p => mkScope (p_scope p) []) ps).
  assert (Vs : Forall valid scs).
  { apply Forall_map. eapply Forall_impl; [|exact V]. intros p [H1 H2]. split; [exact H2|]. split; [constructor|]. split; [intros v _ []|reflexivity]. }
  assert (exists p0 ps0, ps = p0 :: ps0) as (p0 & ps0 & Ep) by (destruct ps; [congruence|eauto]).
  destruct (join_all_ok scs) as (sc & Ej & Vj & Qj & _); [unfold scs; rewrite Ep; discriminate|exact Vs|].
  assert (QV : forall v, In v (query sc) <-> exists p, In p ps /\ In v (p_scope p)).
  { intros v. rewrite Qj. unfold scs. split.
    - intros (t & Ht & Hv). apply in_map_iff in Ht. destruct Ht as (p & <- & Hp). now exists p.
    - intros (p & Hp & Hv). exists (mkScope (p_scope p) []). split; [apply in_map_iff; now exists p|exact Hv]. }
  exists (query sc). split; [|split; [apply Vj|split; [exact QV|]]].
  - intros Z. rewrite Forall_forall in V. destruct (V p0) as [N _]; [rewrite Ep; now left|].
    destruct (p_scope p0) as [|v l] eqn:El; [congruence|]. assert (In v (query sc)) as K by (apply QV; exists p0; rewrite El, Ep; split; now left). rewrite Z in K. destruct K.
  - unfold learn_prometheus. assert (infer_scope ps = Ok (query sc)) as ->; [|reflexivity]. unfold infer_scope. fold scs. rewrite Ej. clear -Ep. subst ps. reflexivity.
Qed.
Print Assumptions C41_default_scope.

(** invalid sizes are rejected *)
Theorem C41_rejects : forall P ps minf mini oc fuel data q, (oc < 1 \/ minf < 1 \/ mini < 1)%nat ->
  learn_prometheus P ps minf mini oc fuel data (Some q) = Some Err.
Proof.
  intros P ps minf mini oc fuel data q H. unfold learn_prometheus.
  destruct (Nat.ltb_spec oc 1), (Nat.ltb_spec minf 1), (Nat.ltb_spec mini 1); cbn [orb]; try reflexivity; lia.
Qed.
Print Assumptions C41_rejects.

(** ** Non-vacuity *)
(** four variables in two strongly coupled pairs: {0,1} and {2,3} *)
Definition exA4 (i j : nat) : R :=
  if (Nat.eqb i 0 && Nat.eqb j 1 || Nat.eqb i 1 && Nat.eqb j 0)%bool then 3/4 else
  if (Nat.eqb i 2 && Nat.eqb j 3 || Nat.eqb i 3 && Nat.eqb j 2)%bool then 1/2 else 1/4.
Lemma exA4_sym i j : exA4 i j = exA4 j i.
Proof. unfold exA4. destruct (Nat.eqb i 0), (Nat.eqb j 1), (Nat.eqb i 1), (Nat.eqb j 0), (Nat.eqb i 2), (Nat.eqb j 3), (Nat.eqb i 3), (Nat.eqb j 2); reflexivity. Qed.
Example C41_partitions_nonvacuous : let Ps := partitions_full 4 exA4 in length Ps = 3%nat /\ refining 4 Ps.
Proof.
  destruct (C41_partitions 4 exA4 ltac:(lia)) as (H1 & H2 & H3 & _). split; [|exact H1]. change 3%nat with (4 - 1)%nat. apply H3. intros u v Hu Hv.
  apply Relation_Operators.rst_step. split; [exact Hu|]. split; [exact Hv|]. unfold exA4. destruct (_ || _)%bool; [lra|]. destruct (_ || _)%bool; lra.
Qed.
Example C41_partitions_sampled_nonvacuous : let E := sampled_edges 4 1 (fun _ => [0%nat]) exA4 in
  edges_ok 4 E /\ map fst E = [(0, 1); (0, 2); (0, 3)]%nat /\ length (partitions_sampled 4 E) = 3%nat.
Proof.
  cbn zeta. destruct (C41_sampled_edges exA4 4 1 (fun _ => [0%nat])) as (H & _); try lia.
  { intros i c _ [<-|[]]. lia. }
  split; [exact H|]. split; [reflexivity|]. apply (C41_partitions_sampled 4 _ ltac:(lia) H).
Qed.

Definition fitB : list nat -> nat -> list nat -> dataset -> result leaf := fun _ _ q _ => Ok (bern q 1 1 (fun _ _ _ => 1/4)).
Definition exPO : poracles := mkPOracles fitB (fun _ _ _ _ _ _ => 0) (fun _ data _ => map (fun j => j mod 2)%nat (seq 0 (length data))) (fun _ _ _ _ => Ok (AFull exA4)).
Definition exPs : list proto := [mkProto [0; 1]%nat 1; mkProto [2; 3]%nat 1].
Definition exPd : dataset := repeat (fun _ => Some 1) 5.
Lemma exPO_sound : sound_poracles exPO exPs.
Proof.
  constructor; cbn.
  - intros path k q data l Hk E. injection E as <-. split; [reflexivity|]. split; [|reflexivity]. destruct k as [|[|k]]; [reflexivity|reflexivity|cbn in Hk; lia].
  - intros. lra.
  - intros. rewrite map_length. apply seq_length.
  - discriminate.
Qed.
Lemma exPs_usable : usable exPs 1 [0; 1; 2; 3]%nat.
Proof.
  split; [lia|]. split; [intros p [<-|[<-|[]]]; reflexivity|]. split.
  - repeat constructor; cbn; intros v Hv; lia.
  - intros v H. assert (In v [0; 1]%nat \/ In v [2; 3]%nat) as [K|K] by (cbn in *; tauto); [exists (mkProto [0;1]%nat 1)|exists (mkProto [2;3]%nat 1)]; cbn in *; auto.
Qed.
Example C41_nonvacuous : exists m, learn_prometheus exPO exPs 2 2 2 9 exPd (Some [0; 1; 2; 3]%nat) = Some (Ok m) /\ ~ helper_raises exPO /\
  built m /\ (forall v, vars m v <-> In v [0; 1; 2; 3]%nat) /\ channels (out_shape m) = 2%nat.
Proof.
  assert (FR : ~ helper_raises exPO) by (intros [(? & ? & ? & ? & E)|(? & ? & ? & ? & E)]; discriminate).
  assert (ND : NoDup [0; 1; 2; 3]%nat) by (repeat constructor; cbn; lia).
  destruct (learn_prometheus exPO exPs 2 2 2 9 exPd (Some [0; 1; 2; 3]%nat)) as [r|] eqn:E.
  - destruct (C41_valid exPO exPs 2 2 2 1 9 exPd _ r exPO_sound ltac:(lia) ltac:(lia) ltac:(lia) exPs_usable ltac:(discriminate) ND E) as [(m & -> & B & _ & _ & (ch & Hch & Es & _) & V & _)|[_ K]]; [|contradiction].
    exists m. do 4 (split; [auto|]). rewrite Es. cbn. lia.
  - exfalso. refine (C41_terminates exPO exPs 2 2 2 9 exPd _ exPO_sound ND _ E); cbn; lia.
Qed.
Example C41_mixture_nonvacuous : exists m, plearn exPO exPs 2 2 9 [0%nat] exPd [0; 1; 2; 3]%nat = Some (Ok m) /\ (2 <= length exPd)%nat.
Proof.
  destruct (plearn exPO exPs 2 2 9 [0%nat] exPd [0; 1; 2; 3]%nat) as [r|] eqn:E.
  - pose proof (plearn_ok exPO exPs 2 2 1 exPO_sound _ _ _ _ _ ltac:(lia) exPs_usable ltac:(discriminate) ltac:(repeat constructor; cbn; lia) E) as [(m & -> & _)|[_ K]].
    + exists m. split; [reflexivity|cbn; lia].
    + destruct K as [(? & ? & ? & ? & K)|(? & ? & ? & ? & K)]; discriminate.
  - exfalso. refine (plearn_ends exPO exPs 2 2 exPO_sound 9 _ _ _ _ _ E); [repeat constructor; cbn; lia|cbn; lia].
Qed.

(** ** C132: fewer decompositions than documented *)
(** A constant column has affinity zero, so it is separated from the start: fewer than
    d - 1 decompositions, and the first one has more than two blocks. *)
Theorem C132_partition_count_refuted : forall d data i, (3 <= d)%nat -> (i < d)%nat -> (exists a, forall x, In x data -> x i = a) ->
  let Ps := partitions_full d (affinity_corr d data) in (length Ps < d - 1)%nat /\ forall P, nth_error Ps 0 = Some P -> (2 < length P)%nat.
Proof.
  intros d data i Hd Hi (a & H). cbn zeta. destruct (C41_partitions d (affinity_corr d data) ltac:(lia)) as ([R _] & L & J & _).
  set (Ps := partitions_full d (affinity_corr d data)) in *.
  assert (N : length Ps <> (d - 1)%nat).
  { intros K. pose proof (proj1 J K) as K'. assert (forall u v, joined d (affinity_corr d data) u v -> (u = i <-> v = i)) as JJ.
    { intros u v. induction 1 as [u v (Hu & Hv & Z)| |u v _ IH|u v w _ IH1 _ IH2]; [|tauto|tauto|tauto]. destruct (Nat.eq_dec u v) as [->|Nuv]; [tauto|]. split; intros ->; exfalso; apply Z.
      - apply (corr_constant d data i v a); [lia|auto|exact H].
      - rewrite corr_sym. apply (corr_constant d data i u a); [lia|auto|exact H]. }
    set (j := if Nat.eqb i 0 then 1%nat else 0%nat). assert (j < d /\ j <> i)%nat as [Hj Nj] by (unfold j; destruct (Nat.eqb_spec i 0); lia).
    destruct (JJ i j (K' i j Hi Hj)) as [K2 _]. apply Nj, K2. reflexivity. }
  split; [lia|]. intros P HP. assert (0 < length Ps)%nat by (apply nth_error_Some; congruence). destruct (R 0%nat ltac:(lia)) as [_ E].
  apply nth_error_nth with (d := []) in HP. rewrite HP in E. lia.
Qed.
Print Assumptions C132_partition_count_refuted.

(** ** C133: clusters are dropped from the mixture *)
Definition cells (l : list nat) : row := fun v => Some (INR (nth v l 0%nat)).
Definition numeric (q : list nat) (data : dataset) : list (nat -> R) := map (fun x i => match x (nth i q 0%nat) with Some a => a | None => 0 end) data.
(** a leaf estimator: relative frequencies (Categorical) *)
Definition freq (data : dataset) (v : nat) (a : R) : R :=
  INR (length (filter (fun x : row => match x v with Some b => reqb b a | None => false end) data)) / INR (length data).
Definition freq_leaf (q : list nat) (data : dataset) : leaf := mkLeaf (mkScope q []) 1 1 (fun f _ _ a => lfrom (freq data (nth f q 0%nat) a)) (fun _ _ _ => 0).
Definition dropPO : poracles := mkPOracles (fun _ _ q data => Ok (freq_leaf q data)) (fun _ _ _ _ _ _ => 0)
  (fun _ data _ => firstn (length data) ([0; 0; 0; 0; 1; 1]%nat ++ repeat 0%nat (length data)))
  (fun _ _ data q => Ok (AFull (affinity_corr (length q) (numeric q data)))).
Definition dropPs : list proto := [mkProto [0; 1]%nat 1].
Definition dropD : dataset := map cells [[0; 0]; [0; 0]; [0; 0]; [0; 0]; [1; 1]; [2; 2]]%nat.
Lemma dropPO_sound : sound_poracles dropPO dropPs.
Proof.
  constructor; cbn [po_fit po_rnd po_clus po_aff dropPO].
  - intros path k q data l Hk E. injection E as <-. split; [reflexivity|]. split; [|reflexivity]. destruct k as [|k]; [reflexivity|cbn in Hk; lia].
  - intros. lra.
  - intros. rewrite firstn_length, app_length, repeat_length. cbn [length]. lia.
  - discriminate.
Qed.
Lemma two_none A : A 1%nat 0%nat = 0 -> A 0%nat 1%nat = 0 -> partitions_full 2 A = [].
Proof. intros H1 H2. unfold partitions_full, matrix_edges. cbn. rewrite H1, H2. destruct (reqb 0 0) eqn:E; [reflexivity|]. exfalso. assert (reqb 0 0 = true) by (now apply reqb_spec). congruence. Qed.
Lemma two_one A : A 1%nat 0%nat <> 0 -> partitions_full 2 A = [[[0%nat]; [1%nat]]].
Proof. intros H. unfold partitions_full, matrix_edges. cbn. destruct (reqb (A 1%nat 0%nat) 0) eqn:E; [apply reqb_spec in E; contradiction|]. reflexivity. Qed.
Lemma corr_two : affinity_corr 2 (numeric [0; 1]%nat (map cells [[1; 1]; [2; 2]]%nat)) 1 0 <> 0.
Proof.
  unfold affinity_corr, scaled, centred, colmean, numeric, cells. cbn [Nat.eqb map length lsumR combine fst snd INR nth].
  replace (1 - (1 + (1 + 1 + 0)) / (1 + 1)) with (- / 2) by lra. replace (1 + 1 - (1 + (1 + 1 + 0)) / (1 + 1)) with (/ 2) by lra.
  set (n := sqrt (- / 2 * - / 2 + (/ 2 * / 2 + 0))). assert (0 < n) by (apply sqrt_lt_R0; lra). set (M := Rmax n (/ 10 ^ 12)). assert (0 < M) by (apply Rlt_le_trans with n; [exact H|apply Rmax_l]).
  set (x := _ + _). assert (0 < x). { unfold x, Rdiv. assert (0 < / M) by now apply Rinv_0_lt_compat. assert (0 < / M * / M) by (now apply Rmult_lt_0_compat). nra. }
  intros K. assert (0 < Rmax (-1) (Rmin 1 x)) as Z. { apply Rlt_le_trans with (Rmin 1 x); [apply Rmin_glb_lt; lra|apply Rmax_r]. }
  rewrite Rabs_pos_eq in K by lra. lra.
Qed.
Lemma corr_const i j : i <> j -> affinity_corr 2 (numeric [0; 1]%nat (map cells [[0; 0]; [0; 0]; [0; 0]; [0; 0]]%nat)) i j = 0.
Proof.
  intros N. apply (corr_constant _ _ _ _ 0); [lia|exact N|]. intros x Hx. assert (Z : forall l, In l [[0; 0]; [0; 0]; [0; 0]; [0; 0]]%nat -> forall v, cells l v = Some 0).
  { intros l Hl v. unfold cells. do 2 f_equal. assert (l = [0; 0]%nat) as -> by (cbn in Hl; intuition). destruct v as [|[|[|v]]]; reflexivity. }
  unfold numeric in Hx. apply in_map_iff in Hx. destruct Hx as (y & <- & Hy). apply in_map_iff in Hy. destruct Hy as (l & <- & Hl). now rewrite (Z l Hl).
Qed.
Definition rest : dataset := map cells [[1; 1]; [2; 2]]%nat.
Lemma ok_inj {A} (a b : A) : Ok a = Ok b -> a = b.
Proof. congruence. Qed.
Lemma drop_usable : usable dropPs 1 [0; 1]%nat.
Proof.
  split; [lia|]. split; [intros p [<-|[]]; reflexivity|]. split; [repeat constructor|]. intros v Hv. exists (mkProto [0; 1]%nat 1). split; [now left|exact Hv].
Qed.
Lemma drop_single path v : (v < 2)%nat -> plearn dropPO dropPs 2 2 2 path rest [v] = Some (Ok (MLeaf (freq_leaf [v] rest))).
Proof. intros Hv. destruct v as [|[|v]]; [reflexivity|reflexivity|lia]. Qed.
(** Six rows, (0,0) four times, (1,1) and (2,2): the cluster of the four equal rows has
    affinity zero, gives no product and disappears; the learned circuit gives the most
    frequent row probability zero. *)
Theorem C133_dropped_cluster_refuted : exists m, learn_prometheus dropPO dropPs 2 2 1 3 dropD (Some [0; 1]%nat) = Some (Ok m) /\
  sound_poracles dropPO dropPs /\ usable dropPs 1 [0; 1]%nat /\ In (cells [0; 0]%nat) dropD /\ prob m (cells [0; 0]%nat) 0 0 0 = 0.
Proof.
  assert (ND : NoDup [0; 1]%nat) by (repeat constructor; cbn; lia).
  destruct (learn_prometheus dropPO dropPs 2 2 1 3 dropD (Some [0; 1]%nat)) as [r|] eqn:E; [|exfalso; refine (C41_terminates dropPO dropPs 1 2 2 3 dropD _ dropPO_sound ND _ E); cbn; lia].
  destruct (C41_valid dropPO dropPs 1 2 2 1 3 dropD _ r dropPO_sound ltac:(lia) ltac:(lia) ltac:(lia) drop_usable ltac:(discriminate) ND E) as [(m & -> & _)|[_ [(? & ? & ? & ? & K)|(? & ? & ? & ? & K)]]]; [|discriminate|discriminate].
  exists m. split; [reflexivity|]. split; [apply dropPO_sound|]. split; [apply drop_usable|]. split; [now left|].
  unfold learn_prometheus in E. cbn [Nat.ltb Nat.leb orb seq omapi] in E. destruct (plearn dropPO dropPs 2 2 3 [0%nat] dropD [0; 1]%nat) as [[m'|]|] eqn:EP; cbn [obind] in E; try discriminate.
  apply (f_equal (fun o => match o with Some (Ok m) => m | _ => m' end)) in E. change (m' = m) in E. subst m'.
  destruct (C41_mixture dropPO dropPs 2 2 1 2 [0%nat] dropD [0; 1]%nat m dropPO_sound ltac:(lia) drop_usable ltac:(discriminate) ND ltac:(cbn; lia) ltac:(cbn; lia) EP) as (groups & LG & HG & _ & H1 & _).
  change (sortu (po_clus dropPO [0%nat] dropD [0; 1]%nat)) with [0; 1]%nat in *. cbn [length] in LG.
  destruct groups as [|g0 [|g1 [|? ?]]]; try discriminate. pose proof (HG 0%nat ltac:(cbn; lia)) as G0. pose proof (HG 1%nat ltac:(cbn; lia)) as G1. clear HG. cbn zeta in G0, G1. cbn [nth] in G0, G1.
  change (rows_of dropD (po_clus dropPO [0%nat] dropD [0; 1]%nat) 0) with (map cells [[0; 0]; [0; 0]; [0; 0]; [0; 0]]%nat) in G0.
  change (rows_of dropD (po_clus dropPO [0%nat] dropD [0; 1]%nat) 1) with rest in G1.
  assert (g0 = []) as ->.
  { destruct G0 as [[_ K]|[_ (aff & Ea & F)]]; [exact K|]. cbn [po_aff dropPO] in Ea. apply ok_inj in Ea. subst aff. cbn [partitions] in F. change (length [0; 1]%nat) with 2%nat in F.
    rewrite (two_none _ (corr_const 1 0 ltac:(discriminate)) (corr_const 0 1 ltac:(discriminate))) in F. now inversion F. }
  destruct G1 as [[K _]|[_ (aff & Ea & F)]]; [cbn in K; lia|]. cbn [po_aff dropPO] in Ea. apply ok_inj in Ea. subst aff. cbn [partitions] in F.
  change (length [0; 1]%nat) with 2%nat in F. unfold rest in F. rewrite (two_one _ corr_two) in F. fold rest in F. inversion F as [|part pm pl gl (_ & subs & inputs & FS & FW & EM & PM) FN]. subst. inversion FN; subst. clear F FN.
  assert (m = snd pm) as -> by (apply H1; reflexivity).
  inversion FS as [|? s0 ? ? E0 FS']; subst. inversion FS' as [|? s1 ? ? E1 FS'']; subst. inversion FS''; subst. clear FS FS' FS''.
  cbn [map nth length app] in E0, E1. rewrite drop_single in E0, E1 by lia. apply (f_equal (fun o => match o with Some (Ok m) => m | _ => s0 end)) in E0. apply (f_equal (fun o => match o with Some (Ok m) => m | _ => s1 end)) in E1. cbv beta iota in E0, E1. subst s0 s1.
  assert (inputs = [MLeaf (freq_leaf [0%nat] rest); MLeaf (freq_leaf [1%nat] rest)]) as ->.
  { unfold widened in FW. inversion FW as [|? i0 ? ? W0 FW']; subst. inversion FW' as [|? i1 ? ? W1 FW'']; subst. inversion FW''; subst. cbn in W0, W1.
    destruct W0 as [[_ ->]|[K _]]; [|lia]. destruct W1 as [[_ ->]|[K _]]; [reflexivity|lia]. }
  rewrite PM.
  - cbn [length]. apply bprod_zero with (i := 0%nat); [lia|]. cbn [nth]. unfold prob, loglik. cbn [evalm]. 
    change (pr (lfrom (freq rest 0 0)) = 0). assert (freq rest 0 0 = 0) as ->; [|apply pr_lfrom; lra].
    unfold freq, rest, cells. cbn. destruct (reqb 1 0) eqn:R1; [apply reqb_spec in R1; lra|]. destruct (reqb (1 + 1) 0) eqn:R2; [apply reqb_spec in R2; lra|]. cbn. unfold Rdiv. lra.
  - cbn in EM. apply ok_inj in EM. rewrite <- EM. cbn. lia.
Qed.
Print Assumptions C133_dropped_cluster_refuted.

(** ** C134: the result need not have out_channels channels *)
Definition wideFit : list nat -> nat -> list nat -> dataset -> result leaf := fun _ _ q _ => Ok (bern q 2 1 (fun _ _ _ => 1/4)).
Definition widePO : poracles := mkPOracles wideFit (fun _ _ _ _ _ _ => 0) (fun _ data _ => map (fun _ => 0%nat) data) (fun _ _ _ _ => Ok (AFull exA4)).
Theorem C134_out_channels_refuted : exists P ps data m, sound_poracles P ps /\ usable ps 2 [0%nat] /\
  learn_prometheus P ps 2 100 1 2 data None = Some (Ok m) /\ channels (out_shape m) = 2%nat.
Proof.
  exists widePO, [mkProto [0%nat] 2], exPd, (MLeaf (bern [0%nat] 2 1 (fun _ _ _ => 1/4))). split; [|split; [|split; reflexivity]].
  - constructor; cbn; intros; try lra; try discriminate; try (apply map_length). injection H0 as <-. split; [reflexivity|]. split; [|reflexivity]. destruct k as [|k]; [reflexivity|lia].
  - split; [lia|]. split; [intros p [<-|[]]; reflexivity|]. split; [repeat constructor|]. intros v [<-|[]]. exists (mkProto [0%nat] 2). split; now left.
Qed.
Print Assumptions C134_out_channels_refuted.

(** ** C135: variables of an explicit scope without a leaf module are dropped silently *)
Theorem C135_scope_coverage_refuted : exists P ps data q m, sound_poracles P ps /\ NoDup q /\ learn_prometheus P ps 2 100 1 3 data (Some q) = Some (Ok m) /\ exists v, In v q /\ ~ vars m v.
Proof.
  exists exPO, [mkProto [0%nat] 1], exPd, [0; 1]%nat, (MProduct (MLeaf (bern [0%nat] 1 1 (fun _ _ _ => 1/4)))).
  split; [|split; [repeat constructor; cbn; lia|split; [reflexivity|exists 1%nat; split; [right; now left|unfold vars; cbn; lia]]]].
  constructor; cbn; intros; try lra; try discriminate; [|rewrite map_length; apply seq_length]. injection H0 as <-. split; [reflexivity|]. split; [|reflexivity]. destruct k as [|k]; [reflexivity|lia].
Qed.
Print Assumptions C135_scope_coverage_refuted.
