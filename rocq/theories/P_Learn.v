(** Properties C39, C40, C124-C127: prune_sums and learn_spn. *)
From Coq Require Import List Arith Bool Reals Lia Lra Sorted.
From Verif Require Import Base ScopeModel ScopeProofs CircuitModel CircuitSpec CircuitBasics CircuitEval CircuitProps Integral CircuitMarg MargProofs
  CircuitExamples PruneModel PruneSpec PruneProofs PruneTop PruneMain LearnModel LearnSpec LearnProofs LearnTop LearnMain.
Import ListNotations.
Local Open Scope R_scope.

(** ** C39: prune_sums *)
(** For circuits whose Sums mix single channels, prune_sums returns a circuit with the
    same shape, scope and probabilities in which no Sum of a Cat of Sums is left. *)
Theorem C39_prune_sums : forall R0 m, built m -> aligned m -> uniform R0 m -> mixes_single_channels m ->
  exists m', prune_sums m = Ok m' /\ built m' /\ aligned m' /\ uniform R0 m' /\ out_shape m' = out_shape m /\ scope_of m' = scope_of m /\
    fts m' = fts m /\
    (forall x f c r, (f < features (out_shape m))%nat -> (c < channels (out_shape m))%nat -> (r < R0)%nat ->
       prob m' x f c r = prob m x f c r) /\
    (forall n, node_of n m' -> ~ collapsible n).
Proof. exact prune_sums_ok. Qed.
Print Assumptions C39_prune_sums.

Definition pl (ch : nat) : module := MLeaf (bern [0%nat] ch 1 (fun _ c _ => if Nat.eqb c 0 then 1/4 else 1/2)).
Definition half : wtensor := mkW 1 2 1 1 (fun _ _ _ _ => 1/2).
(** a mixture of [co]-channel mixtures *)
Definition wtwo (co : nat) : wtensor := mkW 1 2 co 1 (fun _ _ _ _ => 1/2).
Definition inner (co : nat) : module := MSum (pl 2) co 1 (fun f i o r => ln (1/2)).
Definition outer (co : nat) : module := MSum (MCat true (mkScope [0%nat] []) [inner co; inner co]) 1 1 (fun f i o r => ln (/ INR (co + co))).
Lemma pl_built ch : (0 < ch)%nat -> built (pl ch).
Proof. intros H. apply b_leaf, bern_ok; try lia; [discriminate|]. repeat constructor. intros []. Qed.
Lemma inner_built co : (1 <= co)%nat -> built (inner co).
Proof.
  intros H. apply (b_sum_w (pl 2) 1 1 (W4 (wtwo co))); [apply pl_built; lia|].
  apply (mk_sum_w_intro (pl 2) (wtwo co)); cbn; try lia; intros; lra.
Qed.
Lemma outer_built co : (1 <= co)%nat -> built (outer co).
Proof.
  intros H. set (w := mkW 1 (co + co) 1 1 (fun _ _ _ _ => / INR (co + co))).
  assert (N0 : 0 < INR (co + co)) by (apply lt_0_INR; lia).
  apply (b_sum_w (MCat true (mkScope [0%nat] []) [inner co; inner co]) 1 1 (W4 w)).
  - apply (b_cat true [inner co; inner co]); [repeat constructor; now apply inner_built|]. cbn. reflexivity.
  - assert (channels (out_shape (MCat true (mkScope [0%nat] []) [inner co; inner co])) = (co + co)%nat) as EC by (cbn; lia).
    apply (mk_sum_w_intro (MCat true (mkScope [0%nat] []) [inner co; inner co]) w); try (cbn; lia).
    + intros. cbn [w wv]. now apply Rinv_0_lt_compat.
    + intros. cbn [w wv wI]. rewrite bsum_const. field. lra.
Qed.
Example C39_nonvacuous : built (outer 1) /\ aligned (outer 1) /\ uniform 1 (outer 1) /\ mixes_single_channels (outer 1) /\ collapsible (outer 1).
Proof.
  split; [apply outer_built; lia|]. split; [cbn; repeat split; repeat constructor|]. split; [cbn; auto|]. split.
  - apply mixes_sum; [|apply one_other; discriminate|discriminate]. apply mixes_cat.
    + repeat constructor; (apply mixes_sum; [apply mixes_leaf|apply one_other; discriminate|discriminate]).
    + intros _. repeat constructor; (intros ? ? ? ? E; injection E as <- <- <- <-; reflexivity).
  - exists true, (mkScope [0%nat] []), [inner 1; inner 1], 1%nat, 1%nat, (fun f i o r => ln (/ INR (1 + 1))).
    split; [reflexivity|]. split; [discriminate|]. repeat constructor; unfold inner; eexists _, _, _, _; reflexivity.
Qed.

(** C124: with two channels per inner Sum the merged weights no longer sum to one and
    prune_sums raises *)
Theorem C124_prune_raises_refuted : exists m, built m /\ aligned m /\ uniform 1 m /\ prune_sums m = Err.
Proof.
  exists (outer 2). split; [apply outer_built; lia|]. split; [cbn; repeat split; repeat constructor|]. split; [cbn; auto|]. reflexivity.
Qed.
Print Assumptions C124_prune_raises_refuted.

(** ** C40: learn_spn *)
(** For every data set, whatever the clustering, the partitioning, the estimated leaves
    and the random weights are: if learn_spn ends, it returns a valid circuit with one
    output feature over exactly the requested variables, of the declared shape, all leaves
    of which are estimated ones, normalised whenever these are; it raises only if the
    estimation of a leaf raises. *)
Theorem C40_valid : forall Or ps oc minf mini pc fuel data q r,
  sound_oracles Or ps -> (1 <= oc)%nat -> (2 <= minf)%nat -> (2 <= mini)%nat -> usable ps pc q -> q <> [] -> NoDup q ->
  learn_spn Or ps oc minf mini fuel data (Some q) = Some r ->
  (exists m, r = Ok m /\ built m /\ aligned m /\ (forall n, node_of n m -> node_good n) /\
     (exists ch, (1 <= ch <= Nat.max pc oc)%nat /\ out_shape m = mkShape 1 ch 1 /\ ll_shape m = Ok (mkShape 1 ch 1)) /\
     (forall v, vars m v <-> In v q) /\ Forall (fitted Or) (leaves_of m) /\
     (forall D, (forall l, fitted Or l -> leaf_norm D l) -> forall c x, (c < channels (out_shape m))%nat ->
        sums_over D (query (scope_of m)) (fun y => prob m y 0 c 0) x 1)) \/
  (r = Err /\ fit_raises Or).
Proof.
  intros Or ps oc minf mini pc fuel data q r SO Hoc Hf Hi Us Hq ND E. unfold learn_spn in E.
  destruct (Nat.ltb_spec mini 2); [lia|]. destruct (Nat.ltb_spec minf 2); [lia|]. cbn [orb] in E.
  destruct (learn_ok Or ps oc minf mini pc SO Hoc ltac:(lia) _ _ _ _ _ Us Hq ND E) as [(m & -> & G)|K]; [|now right].
  left. exists m. pose proof (learn_fitted _ _ _ _ _ _ _ _ _ _ E) as Fi.
  assert (W : wf m) by (apply built_wf, G).
  destruct (uniform_ll m 1 W (g_un _ _ _ G)) as [ES ER].
  assert (EO : out_shape m = mkShape 1 (channels (out_shape m)) 1).
  { pose proof (g_feat _ _ _ G) as F1. destruct (out_shape m) as [a b c]. cbn in *. now subst. }
  split; [reflexivity|]. split; [apply G|]. split; [apply G|]. split; [intros n Hn; eapply c07; [apply G|exact Hn]|].
  split; [exists (channels (out_shape m)); split; [split; [eapply good_ch, G|apply G]|split; [exact EO|rewrite ES; f_equal; exact EO]]|].
  split; [apply G|]. split; [exact Fi|].
  intros D HD c x Hc. apply c01_scope with (s := out_shape m); try apply G; auto.
  - unfold leaves_norm. eapply Forall_impl; [|exact Fi]. exact HD.
  - unfold in_shape. rewrite (g_feat _ _ _ G), ER. split; [lia|]. split; [exact Hc|lia].
Qed.
Print Assumptions C40_valid.

(** Without an explicit scope the leaf modules' variables are requested; overlapping leaf
    modules are rejected. *)
Theorem C40_default_scope : forall Or ps oc minf mini fuel data,
  Forall (fun p => p_scope p <> [] /\ NoDup (p_scope p)) ps -> ps <> [] ->
  (ForallOrdPairs (fun a b => forall v, In v (p_scope a) -> ~ In v (p_scope b)) ps /\
   exists q, q <> [] /\ NoDup q /\ (forall v, In v q <-> exists p, In p ps /\ In v (p_scope p)) /\
     learn_spn Or ps oc minf mini fuel data None = learn_spn Or ps oc minf mini fuel data (Some q)) \/
  (~ ForallOrdPairs (fun a b => forall v, In v (p_scope a) -> ~ In v (p_scope b)) ps /\
   learn_spn Or ps oc minf mini fuel data None = Some Err).
Proof.
  intros Or ps oc minf mini fuel data V Hps.
  set (scs := map (fun p => mkScope (p_scope p) []) ps).
  assert (Vs : Forall valid scs).
  { apply Forall_map. eapply Forall_impl; [|exact V]. intros p [H1 H2]. split; [exact H2|]. split; [constructor|]. split; [intros v _ []|reflexivity]. }
  assert (DS : ForallOrdPairs disjoint_scopes scs <-> ForallOrdPairs (fun a b => forall v, In v (p_scope a) -> ~ In v (p_scope b)) ps).
  { unfold scs. clear. induction ps as [|p ps IH]; [split; constructor|]. cbn [map]. split; intros H; inversion H as [|? ? H1 H2]; subst; constructor.
    - rewrite Forall_map in H1. exact H1.
    - now apply IH.
    - rewrite Forall_map. exact H1.
    - now apply IH. }
  assert (exists b, (if Nat.ltb 1 (length ps) then all_pairwise_disjoint scs else Ok true) = Ok b /\
    (b = true <-> ForallOrdPairs (fun a b => forall v, In v (p_scope a) -> ~ In v (p_scope b)) ps)) as (b & Eb & Hb).
  { destruct (Nat.ltb_spec 1 (length ps)).
    - destruct (all_pairwise_disjoint_spec scs Vs) as (b & E & H'). exists b. split; [exact E|]. now rewrite H'.
    - exists true. split; [reflexivity|]. split; [|reflexivity]. intros _. destruct ps as [|p [|? ?]]; [constructor|repeat constructor|cbn in *; lia]. }
  assert (exists p0 ps0, ps = p0 :: ps0) as (p0 & ps0 & Ep) by (destruct ps; [congruence|eauto]).
  destruct (join_all_ok scs) as (sc & Ej & Vj & Qj & _); [unfold scs; rewrite Ep; discriminate|exact Vs|].
  assert (DE : default_scope ps = if b then Ok (query sc) else Err).
  { unfold default_scope. fold scs. rewrite Eb, Ej. cbn [bind]. clear -Ep. subst ps. destruct b; reflexivity. }
  unfold learn_spn. rewrite DE. destruct b.
  - left. split; [now apply Hb|]. exists (query sc).
    assert (QV : forall v, In v (query sc) <-> exists p, In p ps /\ In v (p_scope p)).
    { intros v. rewrite Qj. unfold scs. split.
      - intros (t & Ht & Hv). apply in_map_iff in Ht. destruct Ht as (p & <- & Hp). now exists p.
      - intros (p & Hp & Hv). exists (mkScope (p_scope p) []). split; [apply in_map_iff; now exists p|exact Hv]. }
    split; [|split; [apply Vj|split; [exact QV|reflexivity]]].
    intros Z. rewrite Forall_forall in V. destruct (V p0) as [N _]; [rewrite Ep; now left|].
    destruct (p_scope p0) as [|v l] eqn:El; [congruence|]. assert (In v (query sc)) as K by (apply QV; exists p0; rewrite El, Ep; split; now left). rewrite Z in K. destruct K.
  - right. split; [|reflexivity]. intros H. apply Hb in H. discriminate.
Qed.
Print Assumptions C40_default_scope.

(** learn_spn ends when the clustering splits every slice of at least min_instances_slice
    rows (at most |scope| + |data| nested calls). *)
Theorem C40_terminates : forall Or ps oc minf mini fuel data q,
  sound_oracles Or ps -> (1 <= oc)%nat -> (2 <= mini)%nat -> splits Or mini -> NoDup q -> (length q + length data < fuel)%nat ->
  learn_spn Or ps oc minf mini fuel data (Some q) <> None.
Proof.
  intros Or ps oc minf mini fuel data q SO Hoc Hi HS ND HF. unfold learn_spn. destruct (_ || _)%bool; [discriminate|].
  refine (learn_ends Or ps oc minf mini 0 SO Hoc (Nat.lt_le_incl 1 mini Hi) _ fuel [] data q ND HF).
  intros path i d Hd. destruct (HS path i d Hd) as (a & b & Ha & Hb & Hab).
  assert (Ia : In a (sortu (o_clus Or path i d))) by now apply sortu_In. assert (Ib : In b (sortu (o_clus Or path i d))) by now apply sortu_In.
  destruct (sortu (o_clus Or path i d)) as [|x [|y l]]; [destruct Ia| |cbn; lia]. destruct Ia as [<-|[]], Ib as [<-|[]]. congruence.
Qed.
Print Assumptions C40_terminates.

(** When the variables are not partitioned, channel i is the mixture of the circuits
    learned on the clusters, weighted by the clusters' shares of the rows (each cluster's
    channels equally). *)
Theorem C40_mixture : forall Or ps oc minf mini pc n path data q m,
  sound_oracles Or ps -> (1 <= oc)%nat -> (1 <= mini)%nat -> usable ps pc q -> q <> [] -> NoDup q ->
  (minf <= length q)%nat -> (mini <= length data)%nat -> length data = 1%nat \/ (length (blocks q (o_part Or path data q)) <= 1)%nat ->
  learn Or ps oc minf mini (S n) path data q = Some (Ok m) ->
  forall i, (i < oc)%nat -> let labels := o_clus Or path i data in
    exists subs, length subs = length (sortu labels) /\
      (forall k, (k < length subs)%nat -> learn Or ps oc minf mini n (k :: S i :: path) (rows_of data labels (nth k (sortu labels) 0%nat)) q = Some (Ok (nth k subs m))) /\
      forall x, prob m x 0 i 0 = bsum (length subs) (fun k => let sub := nth k subs m in
        INR (length (rows_of data labels (nth k (sortu labels) 0%nat))) / INR (length data) *
        (bsum (channels (out_shape sub)) (fun c => prob sub x 0 c 0) / INR (channels (out_shape sub)))).
Proof.
  intros Or ps oc minf mini pc n path data q m H1 H2 H3 H4 H5 H6 H7 H8 H9 H10 i Hi labels.
  destruct (learn_cluster Or ps oc minf mini pc n path data q m H1 H2 H3 H4 H5 H6 H7 H8 H9 H10 i Hi) as (subs & A & B & C).
  exists subs. split; [exact A|]. split; [exact B|]. intros x. exact (C (leaf_score x)).
Qed.
Print Assumptions C40_mixture.

(** A learned circuit can be pruned: same probabilities, no nested mixtures left. *)
Theorem C40_then_prune : forall Or ps oc minf mini pc fuel data q m,
  sound_oracles Or ps -> (1 <= oc)%nat -> (2 <= mini)%nat -> usable ps pc q -> q <> [] -> NoDup q ->
  learn_spn Or ps oc minf mini fuel data (Some q) = Some (Ok m) ->
  exists m', prune_sums m = Ok m' /\ built m' /\ scope_of m' = scope_of m /\ out_shape m' = out_shape m /\
    (forall x c, (c < channels (out_shape m))%nat -> prob m' x 0 c 0 = prob m x 0 c 0) /\ (forall n, node_of n m' -> ~ collapsible n).
Proof.
  intros Or ps oc minf mini pc fuel data q m SO Hoc Hi Us Hq ND E. unfold learn_spn in E. destruct (_ || _)%bool; [discriminate|].
  destruct (learn_ok Or ps oc minf mini pc SO Hoc ltac:(lia) _ _ _ _ _ Us Hq ND E) as [(m0 & E0 & G)|[K _]]; [injection E0 as ->|discriminate].
  destruct (prune_sums_ok 1 m0) as (m' & A & B & _ & _ & C & S & _ & P & N); try apply G.
  exists m'. do 4 (split; [assumption|]). split; [|exact N]. intros x c Hc. apply P; [rewrite (g_feat _ _ _ G); lia|exact Hc|lia].
Qed.
Print Assumptions C40_then_prune.

(** Helpers as in the non-vacuity example: three variables; the first call does not split
    the variables, later calls split them one by one; clusters alternate. *)
Definition exO : oracles := mkOracles
  (fun path data q => match path with [] => map (fun _ => 0%nat) q | _ => seq 0 (length q) end)
  (fun path i data => map (fun j => j mod 2)%nat (seq 0 (length data)))
  (fun path k q data => Ok (bern q 1 1 (fun _ _ _ => 1/4)))
  (fun _ _ _ _ _ _ => 0).
Definition exP : list proto := [mkProto [0; 1]%nat 1; mkProto [2]%nat 1].
Definition exD : dataset := repeat (fun _ => Some 1) 5.
Lemma exO_sound : sound_oracles exO exP.
Proof.
  constructor.
  - intros [|? ?] data q; cbn; [apply map_length|apply seq_length].
  - intros. cbn. rewrite map_length. apply seq_length.
  - intros path k q data l Hk E. cbn in E. injection E as <-. split; [reflexivity|]. split; [|reflexivity].
    destruct k as [|[|k]]; [reflexivity|reflexivity|cbn in Hk; lia].
  - intros. cbn. lra.
Qed.
Lemma exO_splits : splits exO 2.
Proof.
  intros path i data H. exists 0%nat, 1%nat. split; [|split; [|discriminate]]; apply in_map_iff; [exists 0%nat|exists 1%nat]; (split; [reflexivity|apply in_seq; lia]).
Qed.
Lemma exP_usable : usable exP 1 [0; 1; 2]%nat.
Proof.
  split; [lia|]. split; [intros p [<-|[<-|[]]]; reflexivity|]. split.
  - repeat constructor; cbn; intros v Hv; lia.
  - intros v [<-|[<-|[<-|[]]]]; [exists (mkProto [0;1]%nat 1)|exists (mkProto [0;1]%nat 1)|exists (mkProto [2]%nat 1)]; cbn; auto.
Qed.
Example C40_nonvacuous : exists m, learn_spn exO exP 2 2 2 9 exD (Some [0; 1; 2]%nat) = Some (Ok m) /\ ~ fit_raises exO /\
  built m /\ (forall v, vars m v <-> In v [0; 1; 2]%nat).
Proof.
  assert (FR : ~ fit_raises exO) by (intros (? & ? & ? & ? & E); discriminate).
  assert (ND : NoDup [0; 1; 2]%nat) by (repeat constructor; cbn; lia).
  destruct (learn_spn exO exP 2 2 2 9 exD (Some [0; 1; 2]%nat)) as [r|] eqn:E.
  - destruct (C40_valid exO exP 2 2 2 1 9 exD [0; 1; 2]%nat r exO_sound ltac:(lia) ltac:(lia) ltac:(lia) exP_usable ltac:(discriminate) ND E) as [(m & -> & B & _ & _ & _ & V & _)|[_ K]]; [|contradiction].
    exists m. auto.
  - exfalso. refine (C40_terminates exO exP 2 2 2 9 exD [0; 1; 2]%nat exO_sound _ _ exO_splits ND _ E); cbn; lia.
Qed.
Example C40_mixture_nonvacuous : exists m, learn exO exP 2 2 2 9 [] exD [0; 1; 2]%nat = Some (Ok m) /\
  (length (blocks [0; 1; 2]%nat (o_part exO [] exD [0; 1; 2]%nat)) <= 1)%nat.
Proof. destruct C40_nonvacuous as (m & E & _). exists m. split; [exact E|apply Nat.leb_le; reflexivity]. Qed.

(** C125: a clustering that returns a single label makes learn_spn recurse for ever *)
Definition oneO : oracles := mkOracles (fun _ _ q => map (fun _ => 0%nat) q) (fun _ _ data => map (fun _ => 0%nat) data)
  (fun path k q data => Ok (bern q 1 1 (fun _ _ _ => 1/4))) (fun _ _ _ _ _ _ => 0).
Lemma rows_all (data : dataset) : rows_of data (map (fun _ => 0%nat) data) 0 = data.
Proof. unfold rows_of. induction data as [|x d IH]; [reflexivity|]. cbn in *. now rewrite IH. Qed.
Lemma one_loops : forall fuel path data, (2 <= length data)%nat -> learn oneO exP 1 2 2 fuel path data [0; 1; 2]%nat = None.
Proof.
  induction fuel as [|n IH]; intros path data Hd; [reflexivity|]. cbn [learn]. change (Nat.ltb (length [0; 1; 2]%nat) 2) with false. cbv iota.
  replace (if Nat.eqb (length data) 1 then [] else blocks [0; 1; 2]%nat (o_part oneO path data [0; 1; 2]%nat)) with [[0; 1; 2]%nat] by (destruct (Nat.eqb_spec (length data) 1); [lia|reflexivity]).
  cbn [length Nat.ltb Nat.leb]. destruct (Nat.ltb_spec (length data) 2); [lia|]. cbn [seq omapi o_clus oneO].
  assert (sortu (map (fun _ : row => 0%nat) data) = [0%nat]) as ->.
  { apply ssorted_ext; [apply sortu_sorted|repeat constructor|]. intros v. rewrite sortu_In, in_map_iff. split; [intros (x & <- & _); now left|].
    intros [<-|[]]. destruct data as [|x d]; [cbn in Hd; lia|]. exists x. split; [reflexivity|now left]. }
  cbn [omapi]. rewrite rows_all, !IH by exact Hd. reflexivity.
Qed.
Theorem C125_termination_refuted : exists Or ps data q, sound_oracles Or ps /\ usable ps 1 q /\
  forall fuel, learn_spn Or ps 1 2 2 fuel data (Some q) = None.
Proof.
  exists oneO, exP, exD, [0; 1; 2]%nat. split; [|split; [apply exP_usable|intros fuel; apply one_loops; cbn; lia]].
  constructor; intros; cbn.
  - apply map_length.
  - apply map_length.
  - cbn in H0. injection H0 as <-. split; [reflexivity|]. split; [|reflexivity]. destruct k as [|[|k]]; [reflexivity|reflexivity|cbn in H; lia].
  - lra.
Qed.
Print Assumptions C125_termination_refuted.

(** C126: variables of an explicit scope without a leaf module are dropped silently *)
Theorem C126_scope_coverage_refuted : exists Or ps data q m, sound_oracles Or ps /\ NoDup q /\
  learn_spn Or ps 1 3 2 1 data (Some q) = Some (Ok m) /\ exists v, In v q /\ ~ vars m v.
Proof.
  exists oneO, [mkProto [0%nat] 1], exD, [0; 1]%nat, (MProduct (MLeaf (bern [0%nat] 1 1 (fun _ _ _ => 1/4)))).
  split; [|split; [repeat constructor; cbn; lia|split; [reflexivity|exists 1%nat; split; [right; now left|unfold vars; cbn; lia]]]].
  constructor; intros; cbn.
  - apply map_length.
  - apply map_length.
  - cbn in H0. injection H0 as <-. split; [reflexivity|]. split; [|reflexivity]. destruct k as [|k]; [reflexivity|cbn in H; lia].
  - lra.
Qed.
Print Assumptions C126_scope_coverage_refuted.

(** C127: disjoint leaf modules with different numbers of channels make learn_spn raise *)
Theorem C127_leaf_channels_refuted : exists Or ps data, sound_oracles Or ps /\ ~ fit_raises Or /\
  ForallOrdPairs (fun a b => forall v, In v (p_scope a) -> ~ In v (p_scope b)) ps /\ (forall p, In p ps -> (1 <= p_ch p)%nat) /\
  learn_spn Or ps 1 3 2 1 data None = Some Err.
Proof.
  set (O2 := mkOracles (fun _ _ q => map (fun _ => 0%nat) q) (fun _ _ data => map (fun _ => 0%nat) data)
    (fun path k q data => Ok (bern q (S k) 1 (fun _ _ _ => 1/4))) (fun _ _ _ _ _ _ => 0)).
  exists O2, [mkProto [0%nat] 1; mkProto [1%nat] 2], exD. split; [|split; [|split; [|split; [|reflexivity]]]].
  - constructor; intros; cbn.
    + apply map_length.
    + apply map_length.
    + cbn in H0. injection H0 as <-. split; [reflexivity|]. split; [|reflexivity]. destruct k as [|[|k]]; [reflexivity|reflexivity|cbn in H; lia].
    + lra.
  - intros (? & ? & ? & ? & E). discriminate.
  - repeat constructor; cbn; intros v Hv; lia.
  - intros p [<-|[<-|[]]]; cbn; lia.
Qed.
Print Assumptions C127_leaf_channels_refuted.
