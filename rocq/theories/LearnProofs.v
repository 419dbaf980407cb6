(** learn_spn always returns a valid circuit over the requested variables. *)
From Coq Require Import List Arith Bool Reals Lia Lra Sorted Permutation.
From Verif Require Import Base ScopeModel ScopeProofs CircuitModel CircuitSpec CircuitBasics CircuitEval CircuitProps MargProofs
  PruneSpec PruneProofs PruneTop PruneMain LearnModel LearnSpec.
Import ListNotations.
Local Open Scope R_scope.

(** *** structure of the results *)
Record good (ref : nat) (q : list nat) (m : module) : Prop := {
  g_built : built m; g_al : aligned m; g_un : uniform 1 m; g_feat : features (out_shape m) = 1%nat;
  g_ev : evidence (scope_of m) = []; g_vars : forall v, In v (query (scope_of m)) <-> In v q;
  g_ch : (channels (out_shape m) <= ref)%nat;
  g_one : one_channel m; g_nc : forall sc cs, m <> MCat false sc cs; g_mix : mixes_single_channels m }.

Lemma good_fts m q : wf m -> features (out_shape m) = 1%nat -> (forall v, In v (query (scope_of m)) <-> In v q) -> fts m = [sortu q].
Proof.
  intros W F V. pose proof (wf_wf1 _ W) as [_ L Un _ S _ _ _]. rewrite F in *.
  destruct (fts m) as [|l [|? ?]] eqn:E; cbn in L; try discriminate. f_equal.
  assert (nthq m 0 = l) as N by (unfold nthq; rewrite E; reflexivity).
  apply ssorted_ext; [rewrite <- N; apply S; lia|apply sortu_sorted|]. intros v. rewrite sortu_In, <- V, Un. split.
  - intros H. exists 0%nat. rewrite N. split; [lia|exact H].
  - intros (f & Hf & H). assert (f = 0)%nat as -> by lia. now rewrite N in H.
Qed.

Lemma mixes_leaf l : mixes_single_channels (MLeaf l).
Proof. intros n Hn. inversion Hn; subst. exact I. Qed.
Lemma mixes_sum ch co rr lg : mixes_single_channels ch -> one_channel ch -> (forall sc cs, ch <> MCat false sc cs) ->
  mixes_single_channels (MSum ch co rr lg).
Proof. intros M O N n Hn. inversion Hn; subst; [split; assumption|]. now apply M. Qed.
Lemma mixes_product ch : mixes_single_channels ch -> mixes_single_channels (MProduct ch).
Proof. intros M n Hn. inversion Hn; subst; [exact I|]. now apply M. Qed.
Lemma mixes_cat (d2 : bool) sc cs : Forall mixes_single_channels cs -> (d2 = true -> Forall one_channel cs) -> mixes_single_channels (MCat d2 sc cs).
Proof.
  intros M O n Hn. inversion Hn as [| | |? c ? ? ? Hc Hn']; subst; [destruct d2; [now apply O|exact I]|].
  rewrite Forall_forall in M. exact (M c Hc n Hn').
Qed.
Lemma one_other m : (forall c co rr lg, m <> MSum c co rr lg) -> one_channel m.
Proof. intros H c co rr lg E. exfalso. eapply H, E. Qed.

Lemma mk_sum_rand_intro c co nr rnd : (1 <= co)%nat -> (0 < channels (out_shape c))%nat -> (forall f i o r, 0 <= rnd f i o r) ->
  exists lg, mk_sum_rand c co nr rnd = Ok (MSum c co nr lg).
Proof.
  intros Hco Hc Hr. unfold mk_sum_rand. destruct (Nat.ltb_spec co 1); [lia|]. cbn zeta.
  set (I := channels (out_shape c)) in *. set (raw := fun f i o r => rnd f i o r + / 10 ^ 8).
  assert (P : forall f i o r, 0 < raw f i o r).
  { intros. unfold raw. assert (0 < / 10 ^ 8) by (apply Rinv_0_lt_compat; lra). specialize (Hr f i o r). lra. }
  assert (S : forall f o r, 0 < bsum I (fun j => raw f j o r)) by (intros; apply bsum_pos; auto).
  set (w := mkW (features (out_shape c)) I co nr (fun f i o r => raw f i o r / bsum I (fun j => raw f j o r))).
  exists (fun f i o r => ln (wv w f i o r)). change (set_weights c (wO w) (wR w) w = Ok (MSum c (wO w) (wR w) (fun f i o r => ln (wv w f i o r)))).
  apply set_weights_intro; try reflexivity.
  - intros f i o r _ _ _ _. cbn [w wv]. apply Rdiv_lt_0_compat; auto.
  - intros f o r _ _ _. cbn [w wv wI]. rewrite bsum_div. specialize (S f o r). field. lra.
Qed.

(** products of inputs over disjoint variables *)
Lemma good_product ref q (ms : list module) :
  (2 <= length ms)%nat -> (1 <= ref)%nat ->
  Forall (fun m => built m /\ aligned m /\ uniform 1 m /\ evidence (scope_of m) = [] /\ channels (out_shape m) = ref /\ mixes_single_channels m) ms ->
  ForallOrdPairs (fun a b => forall v, In v (query (scope_of a)) -> ~ In v (query (scope_of b))) ms ->
  (forall v, In v q <-> exists m, In m ms /\ In v (query (scope_of m))) ->
  exists m, mk_product ms = Ok m /\ good ref q m /\ channels (out_shape m) = ref.
Proof.
  intros HL Hr H D V. destruct ms as [|m0 [|m1 ms]]; cbn in HL; try lia. set (l := m0 :: m1 :: ms) in *.
  rewrite Forall_forall in H.
  assert (W : Forall wf l) by (apply Forall_forall; intros m Hm; apply built_wf, (H m Hm)).
  destruct (mk_cat_false_intro m0 (m1 :: ms)) as (sc & E).
  - exact W.
  - intros c Hc. destruct (H c Hc) as (_ & _ & _ & _ & -> & _). symmetry. apply (H m0). now left.
  - fold l. revert D. clear. generalize l. intros l0 D. induction D; constructor; auto.
    apply Forall_forall. intros s Hs. apply in_map_iff in Hs. destruct Hs as (c & <- & Hc). rewrite Forall_forall in H.
    first [exact (H c Hc)|intros v Hv; exact (H c Hc v Hv)|idtac].
  - fold l in E. exists (MProduct (MCat false sc l)). unfold mk_product. unfold l at 1. fold l. rewrite E. cbn [bind]. split; [reflexivity|].
    assert (B : built (MCat false sc l)) by (eapply b_cat; [|exact E]; apply Forall_forall; intros m Hm; apply (H m Hm)).
    pose proof (built_wf _ B) as WC. assert (CH : channels (out_shape (MProduct (MCat false sc l))) = ref).
    { cbn [out_shape]. unfold l. cbn [map hd_shape hd channels]. apply (H m0). now left. }
    split; [|exact CH]. constructor.
    + eapply (b_product l); [apply Forall_forall; intros m Hm; apply (H m Hm)|]. unfold mk_product. unfold l at 1. fold l. rewrite E. reflexivity.
    + change (aligned (MCat false sc l)). apply aligned_cat. split; [|discriminate]. apply Forall_forall. intros m Hm. apply (H m Hm).
    + change (uniform 1 (MCat false sc l)). apply uniform_cat, Forall_forall. intros m Hm. apply (H m Hm).
    + reflexivity.
    + cbn [scope_of]. cbn [wf] in WC. destruct WC as (_ & _ & _ & _ & (_ & Ev) & _).
      destruct (evidence sc) as [|v e]; [reflexivity|]. exfalso. destruct (Ev v ltac:(now left)) as (c & Hc & Hv).
      destruct (H c Hc) as (_ & _ & _ & Z & _). rewrite Z in Hv. destruct Hv.
    + intros v. cbn [scope_of]. cbn [wf] in WC. destruct WC as (_ & _ & _ & _ & _ & Q). rewrite Q, V. reflexivity.
    + rewrite CH. lia.
    + apply one_other. discriminate.
    + discriminate.
    + apply mixes_product, mixes_cat; [|discriminate]. apply Forall_forall. intros m Hm. apply (H m Hm).
Qed.

(** *** leaves *)
Section Learn.
Variables (Or : oracles) (ps : list proto) (oc minf mini pc : nat).
Hypothesis SO : sound_oracles Or ps.
Hypothesis Hoc : (1 <= oc)%nat.
Hypothesis Hmf : (2 <= minf)%nat.
Let ref := Nat.max pc oc.

Lemma leaf_good q l : q <> [] -> StronglySorted lt q -> l_scope l = mkScope q [] -> l_ch l = pc -> l_rep l = 1%nat -> (1 <= pc)%nat ->
  built (MLeaf l) /\ aligned (MLeaf l) /\ uniform 1 (MLeaf l) /\ evidence (scope_of (MLeaf l)) = [] /\
  channels (out_shape (MLeaf l)) = pc /\ mixes_single_channels (MLeaf l).
Proof.
  intros Hq Hs Es Ec Er Hpc. split.
  - apply b_leaf. apply leaf_okb_spec. rewrite Es, Ec, Er. cbn [query]. split; [|split; [exact Hq|lia]].
    split; [now apply ssorted_NoDup|]. cbn [query evidence]. split; [constructor|]. split; [intros v _ []|reflexivity].
  - cbn [aligned uniform scope_of out_shape channels]. rewrite Es. split; [exact I|]. split; [exact Er|]. split; [reflexivity|]. split; [exact Ec|apply mixes_leaf].
Qed.

Lemma fit_leaves_ok path q data ps0 k0 : (1 <= pc)%nat -> ps = firstn k0 ps ++ ps0 -> length (firstn k0 ps) = k0 ->
  (forall p, In p ps0 -> p_ch p = pc) -> ForallOrdPairs (fun a b => forall v, In v (p_scope a) -> ~ In v (p_scope b)) ps0 ->
  (exists ls, fit_leaves Or path q data k0 ps0 = Ok ls /\
    Forall (fun m => (built m /\ aligned m /\ uniform 1 m /\ evidence (scope_of m) = [] /\ channels (out_shape m) = pc /\ mixes_single_channels m) /\
                     exists l p, m = MLeaf l /\ In p ps0 /\ (forall v, In v (query (scope_of m)) <-> In v q /\ In v (p_scope p))) ls /\
    ForallOrdPairs (fun a b => forall v, In v (query (scope_of a)) -> ~ In v (query (scope_of b))) ls /\
    (forall p v, In p ps0 -> In v q -> In v (p_scope p) -> exists m, In m ls /\ In v (query (scope_of m)))) \/
  (fit_leaves Or path q data k0 ps0 = Err /\ fit_raises Or).
Proof.
  intros Hpc. revert k0. induction ps0 as [|p ps0 IH]; intros k0 Eps Hk Hch HD.
  - left. exists []. split; [reflexivity|]. split; [constructor|]. split; [constructor|]. intros p v [].
  - cbn [fit_leaves]. set (inter := sortu (filter (fun v => memb v (p_scope p)) q)).
    assert (HI : forall v, In v inter <-> In v q /\ In v (p_scope p)).
    { intros v. unfold inter. rewrite sortu_In, filter_In, memb_In. tauto. }
    inversion HD as [|? ? HD1 HD2]; subst.
    assert (Lk : (k0 < length ps)%nat) by (rewrite Eps, app_length, Hk; cbn; lia).
    assert (Nk : nth k0 ps (mkProto [] 0) = p) by (rewrite Eps, app_nth2, Hk, Nat.sub_diag by lia; reflexivity).
    assert (Eps' : ps = firstn (S k0) ps ++ ps0 /\ length (firstn (S k0) ps) = S k0).
    { assert (EF : firstn (S k0) ps = firstn k0 ps ++ [p]).
      { clear -Eps Hk. set (a := firstn k0 ps) in *. clearbody a. subst ps. rewrite firstn_app, Hk.
        replace (S k0 - k0)%nat with 1%nat by lia. rewrite (firstn_all2 a) by lia. reflexivity. }
      rewrite EF, <- app_assoc, app_length, Hk. cbn. split; [exact Eps|lia]. }
    destruct (IH (S k0) (proj1 Eps') (proj2 Eps') ltac:(intros; apply Hch; now right) HD2) as [(ls & E & HF & HP & HC)|[E FR]].
    + destruct inter as [|v0 rest] eqn:EI.
      * left. exists ls. split; [exact E|]. split.
        -- eapply Forall_impl; [|exact HF]. intros m (G & l & p' & A & B & C). split; [exact G|]. exists l, p'. split; [exact A|]. split; [now right|exact C].
        -- split; [exact HP|]. intros p' v [<-|Hp] Hv Hv'; [|eapply HC; eauto].
           exfalso. apply (proj2 (HI v)). split; assumption.
      * destruct (o_fit Or path k0 (v0 :: rest) data) as [l|] eqn:EF.
        -- left. exists (MLeaf l :: ls). cbn [bind]. rewrite E. cbn [bind]. split; [reflexivity|].
           destruct (so_fit _ _ SO _ _ _ _ _ Lk EF) as (S1 & S2 & S3). rewrite Nk in S2. rewrite (Hch p ltac:(now left)) in S2.
           assert (GL : built (MLeaf l) /\ aligned (MLeaf l) /\ uniform 1 (MLeaf l) /\ evidence (scope_of (MLeaf l)) = [] /\
             channels (out_shape (MLeaf l)) = pc /\ mixes_single_channels (MLeaf l)).
           { apply (leaf_good (v0 :: rest)); try assumption; [discriminate|]. rewrite <- EI. apply sortu_sorted. }
           assert (QL : forall v, In v (query (scope_of (MLeaf l))) <-> In v q /\ In v (p_scope p)).
           { intros v. cbn [scope_of]. rewrite S1. cbn [query]. apply HI. }
           split; [|split].
           ++ constructor; [split; [exact GL|exists l, p; split; [reflexivity|split; [now left|exact QL]]]|].
              eapply Forall_impl; [|exact HF]. intros m (G & l' & p' & A & B & C). split; [exact G|]. exists l', p'. split; [exact A|]. split; [now right|exact C].
           ++ constructor; [|exact HP]. apply Forall_forall. intros m Hm v Hv. rewrite Forall_forall in HF. destruct (HF m Hm) as (_ & l' & p' & _ & Hp' & Hq).
              rewrite Hq. intros [_ Hv']. apply QL in Hv. rewrite Forall_forall in HD1. exact (HD1 p' Hp' v (proj2 Hv) Hv').
           ++ intros p' v [<-|Hp] Hv Hv'.
              ** exists (MLeaf l). split; [now left|]. apply QL. split; assumption.
              ** destruct (HC p' v Hp Hv Hv') as (m & Hm & Hm'). exists m. split; [now right|exact Hm'].
        -- right. split; [reflexivity|]. exists path, k0, (v0 :: rest), data. exact EF.
    + right. split; [|exact FR]. destruct inter; [exact E|]. destruct (o_fit _ _ _ _ _); [|reflexivity]. cbn [bind]. rewrite E. reflexivity.
Qed.

Lemma mv_leaf_ok path q data : usable ps pc q -> q <> [] -> NoDup q ->
  (exists m, mv_leaf Or ps path q data = Ok m /\ good ref q m) \/ (mv_leaf Or ps path q data = Err /\ fit_raises Or).
Proof.
  intros (Hpc & Hch & HD & HC) Hq ND. unfold mv_leaf.
  destruct (fit_leaves_ok path q data ps 0 Hpc eq_refl eq_refl Hch HD) as [(ls & E & HF & HP & HC')|[E FR]].
  2:{ right. rewrite E. split; [reflexivity|exact FR]. }
  left. rewrite E. cbn [bind]. rewrite Forall_forall in HF.
  assert (V : forall v, In v q <-> exists m, In m ls /\ In v (query (scope_of m))).
  { intros v. split.
    - intros Hv. destruct (HC v Hv) as (p & Hp & Hvp). eapply HC'; eauto.
    - intros (m & Hm & Hv). destruct (HF m Hm) as (_ & l & p & _ & _ & Hq'). apply Hq' in Hv. apply Hv. }
  assert (Hls : ls <> []).
  { intros ->. destruct q as [|v q0]; [congruence|]. destruct (proj1 (V v) ltac:(now left)) as (m & [] & _). }
  assert (Rf : (pc <= ref)%nat) by (unfold ref; lia).
  destruct (Nat.ltb_spec 1 (length q)) as [L|L].
  - destruct ls as [|m0 [|m1 ls]]; [congruence| |].
    + cbn [mk_product]. exists (MProduct m0). split; [reflexivity|].
      destruct (HF m0 ltac:(now left)) as ((B & A & U & Ev & Ch & Mx) & _). constructor.
      * eapply (b_product [m0]); [constructor; [exact B|constructor]|reflexivity].
      * exact A.
      * exact U.
      * reflexivity.
      * exact Ev.
      * intros v. cbn [scope_of]. rewrite V. split; [intros H; exists m0; split; [now left|exact H]|].
        intros (m & [<-|[]] & H). exact H.
      * cbn [out_shape channels]. lia.
      * apply one_other. discriminate.
      * discriminate.
      * apply mixes_product. exact Mx.
    + destruct (good_product pc q (m0 :: m1 :: ls)) as (m & Em & G & _); try assumption.
      * cbn; lia.
      * apply Forall_forall. intros m Hm. apply (HF m Hm).
      * exists m. split; [exact Em|]. destruct G; constructor; try assumption. lia.
  - destruct ls as [|m0 ls]; [congruence|]. exists m0. split; [reflexivity|].
    destruct (HF m0 ltac:(now left)) as ((B & A & U & Ev & Ch & Mx) & l & p & -> & _).
    assert (exists v, q = [v]) as (v & ->) by (destruct q as [|v [|? ?]]; cbn in L; [congruence|eauto|lia]).
    assert (QV : forall w, In w (query (l_scope l)) <-> In w [v]).
    { intros w. split; [intros Hw; apply V; exists (MLeaf l); split; [now left|exact Hw]|].
      intros [<-|[]]. destruct (query (l_scope l)) as [|u r] eqn:Eq.
      - pose proof (wf_wf1 _ (built_wf _ B)) as W1. destruct W1 as [_ _ _ _ _ Fp _ _]. cbn in Fp. rewrite Eq in Fp. cbn in Fp. lia.
      - assert (In u [v]) as [<-|[]] by (apply V; exists (MLeaf l); split; [now left|cbn [scope_of]; rewrite Eq; now left]). now left. }
    constructor; try assumption.
    + cbn [out_shape features]. pose proof (wf_scope _ (wf_wf1 _ (built_wf _ B))) as [ND1 _]. cbn [scope_of] in ND1.
      destruct (query (l_scope l)) as [|a [|b r]]; [exfalso; apply (proj2 (QV v)); now left|reflexivity|].
      assert (In a [v]) as [<-|[]] by (apply QV; now left). assert (In b [v]) as [<-|[]] by (apply QV; right; now left).
      inversion ND1 as [|? ? N _]. exfalso. apply N. now left.
    + lia.
    + apply one_other. discriminate.
    + discriminate.
Qed.
End Learn.
