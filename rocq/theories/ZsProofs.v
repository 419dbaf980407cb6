(** Lemmas about the circuits ZsModel.v builds from region trees. *)
From Coq Require Import List Arith ZArith Bool Reals Lia Lra Sorted Permutation.
From Verif Require Import Base ScopeModel ScopeProofs CircuitModel CircuitSpec CircuitBasics CircuitEval CircuitProps MargProofs PruneTop LearnProofs
  LeafModel LeafSpec SignedModel SignedSpec SocsExamples TripleModel ZsModel ZsSpec ZsTree.
Import ListNotations.
Local Open Scope R_scope.

(** structure of an instantiated node *)
Record iok (g : cfg) (t : tnode) (m : smod) : Prop := {
  io_built : built (skel m); io_unif : uniform 1 (skel m);
  io_vars : forall v, In v (query (scope_of (skel m))) <-> In v (tscope t);
  io_ev : evidence (scope_of (skel m)) = [];
  io_feat : sfeat m = match tkids t with [] => length (tscope t) | _ => 1%nat end;
  io_chan : schan m = match tkids t with [] => g_in g | _ => g_sum g end;
  io_rep : repetitions (out_shape (skel m)) = 1%nat }.

(** torch.rand returns values in [0,1) *)
Definition insts (g : cfg) (d : draws) (p : list nat) : nat -> list tnode -> result (list smod) :=
  fix go (i : nat) (l : list tnode) : result (list smod) :=
    match l with
    | [] => Ok []
    | c :: r => bind (instantiate g d (i :: p) c) (fun m => bind (go (S i) r) (fun ms => Ok (m :: ms)))
    end.
Lemma instantiate_node g d p sc ch : ch <> [] ->
  instantiate g d p (TN sc ch) = bind (insts g d p 0 ch) (fun cs => bind (smk_product cs) (fun prod => make_sum g (d_sum d p) prod (g_sum g))).
Proof. intros H. destruct ch; [easy|reflexivity]. Qed.
Lemma insts_inv g d p ch : forall i cs, insts g d p i ch = Ok cs -> Forall2 (fun t m => exists p', instantiate g d p' t = Ok m) ch cs.
Proof.
  induction ch as [|c ch IH]; intros i cs H; cbn [insts] in H.
  - injection H as <-. constructor.
  - destruct (instantiate g d (i :: p) c) as [m|] eqn:E; [|discriminate]. cbn [bind] in H. fold (insts g d p) in H.
    destruct (insts g d p (S i) ch) as [ms|] eqn:E'; [|discriminate]. cbn [bind] in H. injection H as <-. constructor; [eauto|]. eapply IH, E'.
Qed.
Lemma insts_all g d p ch : (forall t, In t ch -> forall p', exists m, instantiate g d p' t = Ok m) -> forall i, exists cs, insts g d p i ch = Ok cs.
Proof.
  induction ch as [|c ch IH]; intros H i; cbn [insts]; [eauto|]. fold (insts g d p). destruct (H c (or_introl eq_refl) (i :: p)) as (m & ->). cbn [bind].
  destruct (IH (fun t Ht => H t (or_intror Ht)) (S i)) as (ms & ->). cbn [bind]. eauto.
Qed.

(** children of a node with distinct variables *)
Lemma ordpairs_perm (ch : list tnode) : NoDup (flat_map tscope ch) -> ForallOrdPairs (fun a b => forall v, In v (tscope a) -> ~ In v (tscope b)) ch.
Proof.
  induction ch as [|c ch IH]; intros H; constructor.
  - apply Forall_forall. intros b Hb v Hv Hv'. cbn [flat_map] in H. revert H. apply in_split in Hv. destruct Hv as (l1 & l2 & ->).
    rewrite <- app_assoc. cbn [app]. intros H. apply NoDup_remove_2 in H. apply H. rewrite !in_app_iff. right. right. apply in_flat_map. eauto.
  - apply IH. cbn [flat_map] in H. revert H. generalize (tscope c). intros l. induction l as [|a l IHl]; [trivial|]. intros H. inversion H; subst. now apply IHl.
Qed.
Lemma nodup_child (ch : list tnode) : NoDup (flat_map tscope ch) -> Forall (fun t => NoDup (tscope t)) ch.
Proof.
  induction ch as [|c ch IH]; intros H; constructor; cbn [flat_map] in H.
  - revert H. generalize (tscope c). intros l. induction l as [|a l IHl]; [constructor|]. intros H. inversion H; subst. constructor; [|now apply IHl]. intros Ha. apply H2. apply in_app_iff. now left.
  - apply IH. revert H. generalize (tscope c). intros l. induction l as [|a l IHl]; [trivial|]. intros H. inversion H; subst. now apply IHl.
Qed.

Lemma rep_uniform m : uniform 1 m -> built m -> repetitions (out_shape m) = 1%nat.
Proof. intros U B. apply (uniform_ll m 1 (built_wf _ B) U). Qed.

Lemma smk_sum_inv c co nr rnd m : smk_sum c co nr rnd = Ok m ->
  (1 <= co)%nat /\ exists lg, m = SSum c co nr lg /\ mk_sum_rand (skel c) co nr rnd = Ok (MSum (skel c) co nr lg).
Proof.
  unfold smk_sum. destruct (mk_sum_rand (skel c) co nr rnd) as [m'|] eqn:E; [|discriminate]. cbn [bind]. intros H.
  pose proof E as E'. unfold mk_sum_rand, set_weights in E. destruct (Nat.ltb_spec co 1); [discriminate|].
  cbn zeta in E. repeat match type of E with (if ?b then _ else _) = _ => destruct b; [|discriminate] || (destruct b; try discriminate) end.
  match type of E with Ok ?a = Ok ?b => assert (b = a) as Em by congruence end. clear E. rewrite Em in E', H.
  match type of H with Ok ?a = Ok ?b => assert (b = a) as Em' by congruence end. clear H. rewrite Em'. split; [assumption|]. eexists. split; [reflexivity|now rewrite <- Em].
Qed.

(** a sum on top of a module keeps variables and features *)
Lemma make_sum_inv g rnd c co m : built (skel c) -> uniform 1 (skel c) -> (1 <= co)%nat -> make_sum g rnd c co = Ok m ->
  built (skel m) /\ uniform 1 (skel m) /\ scope_of (skel m) = scope_of (skel c) /\ sfeat m = sfeat c /\ schan m = co /\
  repetitions (out_shape (skel m)) = 1%nat /\
  (if g_signed g then m = SSigned c co 1 (fun f i o r => rand_uniform (g_vars g) (rnd f i o r)) else exists lg, m = SSum c co 1 lg).
Proof.
  intros B U Hco H. pose proof (rep_uniform _ U B) as Er. unfold make_sum, make_signed_sum in H. rewrite Er in H.
  pose proof (wf_cpos _ (wf_wf1 _ (built_wf _ B))) as Hc. destruct (g_signed g).
  - injection H as <-. cbn [skel]. split; [apply b_sum; auto|]. split; [split; [exact U|reflexivity]|].
    split; [reflexivity|]. split; [reflexivity|]. split; [reflexivity|]. split; reflexivity.
  - apply smk_sum_inv in H. destruct H as (_ & lg & -> & E). cbn [skel]. split; [apply b_sum; auto|]. split; [split; [exact U|reflexivity]|].
    split; [reflexivity|]. split; [reflexivity|]. split; [reflexivity|]. split; [reflexivity|]. eauto.
Qed.
Lemma make_sum_all g rnd c co : built (skel c) -> (1 <= co)%nat -> (forall f i o r, 0 <= rnd f i o r < 1) -> exists m, make_sum g rnd c co = Ok m.
Proof.
  intros B Hco Hr. unfold make_sum, make_signed_sum. destruct (g_signed g); [eauto|]. unfold smk_sum.
  destruct (mk_sum_rand_intro (skel c) co (repetitions (out_shape (skel c))) rnd Hco) as (lg & ->).
  - exact (wf_cpos _ (wf_wf1 _ (built_wf _ B))).
  - intros. apply Hr.
  - cbn [bind]. eauto.
Qed.

(** a product of at least two modules *)
Lemma smk_product_inv cs m : (2 <= length cs)%nat -> smk_product cs = Ok m ->
  exists sc, m = SProduct (SCat false sc cs) /\ mk_cat false (map skel cs) = Ok (MCat false sc (map skel cs)).
Proof.
  intros HL H. destruct cs as [|c0 [|c1 cs]]; cbn in HL; try lia. unfold smk_product in H. set (l := map skel (c0 :: c1 :: cs)) in *.
  destruct (mk_cat false l) as [m'|] eqn:E; [|discriminate]. cbn [bind] in H. injection H as <-. exists (scope_of m'). split; [reflexivity|].
  unfold mk_cat in E. unfold l in E at 1. cbn [map] in E. destruct (forallb _ l); [|discriminate].
  destruct (all_pairwise_disjoint (map scope_of l)) as [[|]|]; [|discriminate|discriminate]. cbn [bind] in E.
  destruct (join_all (map scope_of l)) as [sc|]; [|discriminate]. cbn [bind] in E. injection E as <-. reflexivity.
Qed.

Lemma Forall2_len {A B} (P : A -> B -> Prop) l k : Forall2 P l k -> length l = length k.
Proof. induction 1; cbn; congruence. Qed.

(** what a node is, once instantiated *)
Lemma node_inv g d p sc ch m : (2 <= length ch)%nat -> Permutation sc (flat_map tscope ch) -> (1 <= g_sum g)%nat ->
  (forall cs, Forall2 (fun t m => exists p', instantiate g d p' t = Ok m) ch cs -> Forall2 (iok g) ch cs) ->
  instantiate g d p (TN sc ch) = Ok m ->
  iok g (TN sc ch) m /\ exists cs sc' prod, Forall2 (fun t m => exists p', instantiate g d p' t = Ok m) ch cs /\ prod = SProduct (SCat false sc' cs) /\
    make_sum g (d_sum d p) prod (g_sum g) = Ok m /\ mk_cat false (map skel cs) = Ok (MCat false sc' (map skel cs)).
Proof.
  intros HL HP Hs IH H. assert (ch <> []) as Hne by (destruct ch; [cbn in HL; lia|discriminate]).
  rewrite instantiate_node in H by assumption. destruct (insts g d p 0 ch) as [cs|] eqn:E; [|discriminate]. cbn [bind] in H.
  apply insts_inv in E. pose proof (IH cs E) as F. pose proof (Forall2_len _ _ _ F) as L.
  destruct (smk_product cs) as [prod|] eqn:EP; [|discriminate]. cbn [bind] in H.
  apply smk_product_inv in EP; [|lia]. destruct EP as (sc' & -> & EC).
  assert (BC : Forall built (map skel cs)).
  { clear - F. induction F as [|t c ch cs I F IHF]; constructor; [apply (io_built _ _ _ I)|exact IHF]. }
  assert (B : built (skel (SCat false sc' cs))) by (cbn [skel]; eapply b_cat; eauto).
  assert (BP : built (skel (SProduct (SCat false sc' cs)))).
  { cbn [skel]. apply (b_product (map skel cs)); [exact BC|]. unfold mk_product. destruct cs as [|c0 [|c1 cs]]; cbn in L; try lia. cbn [map] in EC |- *. rewrite EC. reflexivity. }
  assert (U : uniform 1 (skel (SProduct (SCat false sc' cs)))).
  { cbn [skel]. change (uniform 1 (MCat false sc' (map skel cs))). apply uniform_cat. clear - F. induction F as [|t c ch cs I F IHF]; constructor; [apply (io_unif _ _ _ I)|exact IHF]. }
  destruct (make_sum_inv g _ _ _ m BP U Hs H) as (B' & U' & S' & F' & C' & R' & _). split.
  - pose proof (built_wf _ B) as WC. cbn [skel wf] in WC. destruct WC as (_ & _ & _ & _ & (_ & Ev) & Q).
    assert (QV : forall v, In v (query sc') <-> In v sc).
    { intros v. rewrite Q. rewrite (Permutation_in' eq_refl HP). rewrite in_flat_map. split.
      - intros (c & Hc & Hv). apply in_map_iff in Hc. destruct Hc as (x & <- & Hx). clear - F Hx Hv.
        induction F as [|t c ch cs I F IHF]; [destruct Hx|]. destruct Hx as [<-|Hx].
        + exists t. split; [now left|]. now apply (io_vars _ _ _ I).
        + destruct (IHF Hx) as (t' & Ht & Hv'). exists t'. split; [now right|exact Hv'].
      - intros (t & Ht & Hv). clear - F Ht Hv. induction F as [|t' c ch cs I F IHF]; [destruct Ht|]. destruct Ht as [->|Ht].
        + exists (skel c). split; [now left|]. now apply (io_vars _ _ _ I).
        + destruct (IHF Ht) as (c' & Hc & Hv'). exists c'. split; [now right|exact Hv']. }
    constructor; auto.
    + rewrite S'. cbn [skel scope_of tscope]. exact QV.
    + rewrite S'. cbn [skel scope_of]. destruct (evidence sc') as [|v e]; [reflexivity|]. exfalso. destruct (Ev v ltac:(now left)) as (c & Hc & Hv).
      apply in_map_iff in Hc. destruct Hc as (x & <- & Hx). clear - F Hx Hv. induction F as [|t' c ch cs I F IHF]; [destruct Hx|]. destruct Hx as [->|Hx]; [|auto].
      rewrite (io_ev _ _ _ I) in Hv. destruct Hv.
    + rewrite F'. cbn [tkids]. destruct ch; [easy|]. reflexivity.
    + rewrite C'. cbn [tkids]. destruct ch; [easy|]. reflexivity.
  - exists cs, sc', (SProduct (SCat false sc' cs)). auto.
Qed.

Lemma leaf_inv g d p sc m : NoDup sc -> instantiate g d p (TN sc []) = Ok m -> iok g (TN sc []) m /\ make_leaf g d p sc = Ok m.
Proof.
  intros ND H. cbn [instantiate] in H. split; [|exact H].
  assert (G : forall l, sl_scope l = mkScope sc [] -> sl_ch l = g_in g -> sl_rep l = 1%nat -> smk_leaf l = Ok m -> iok g (TN sc []) m).
  { intros l E1 E2 E3 E. assert (m = SLeaf l) as -> by (unfold smk_leaf in E; cbn [skel] in E; destruct (leaf_okb _); [|discriminate];
      destruct l as [l|? ? ? [|K] ?]; congruence).
    assert (leaf_okb (mkLeaf (sl_scope l) (sl_ch l) (sl_rep l) (match l with SFam l => fun f c r => fam_lp (fl_fam l f c r) | SSC _ _ _ _ _ => fun _ _ _ _ => NInf end)
                 (fun _ _ _ => 0)) = true) as OK by (unfold smk_leaf in E; cbn [skel] in E; destruct (leaf_okb _); [reflexivity|discriminate]).
    constructor; cbn [skel].
    - now apply b_leaf.
    - exact E3.
    - cbn [scope_of l_scope]. rewrite E1. intros v. reflexivity.
    - cbn [scope_of l_scope]. rewrite E1. reflexivity.
    - unfold sfeat. cbn [skel out_shape l_scope features]. rewrite E1. reflexivity.
    - unfold schan. cbn [skel out_shape l_ch channels]. exact E2.
    - exact E3. }
  unfold make_leaf in H. destruct (g_layer g); [destruct (g_signed g && g_signed_in g)%bool|destruct (g_signed g && g_signed_in g)%bool| |destruct (g_signed g && g_signed_in g)%bool];
    (eapply G; [| | |exact H]; reflexivity).
Qed.

Lemma inst_inv g d : (1 <= g_sum g)%nat -> forall t p m, region_tree t -> NoDup (tscope t) -> instantiate g d p t = Ok m -> iok g t m.
Proof.
  intros Hs. induction t as [sc ch IH] using tnode_ind'. intros p m RT ND H. cbn [tscope] in ND. inversion RT as [sc' Hn|sc' ch' HL HP HF]; subst.
  - eapply leaf_inv; eauto.
  - eapply (node_inv g d p sc ch m HL HP Hs); [|exact H]. intros cs F.
    assert (ND' : NoDup (flat_map tscope ch)) by (eapply Permutation_NoDup; eauto). apply nodup_child in ND'. clear - IH F HF ND'.
    induction F as [|t c ch cs (p' & E) F IHF]; constructor.
    + inversion IH; inversion HF; inversion ND'; subst. eauto.
    + inversion IH; inversion HF; inversion ND'; subst. auto.
Qed.

Definition states_ok (g : cfg) : Prop :=
  match g_layer g with LGaussian => True | _ => (g_signed g && g_signed_in g)%bool = true -> (0 < g_states g)%nat end.

Lemma leaf_all g d p sc : states_ok g -> (1 <= g_in g)%nat -> sc <> [] -> NoDup sc -> exists m, make_leaf g d p sc = Ok m.
Proof.
  intros HK Hi Hn ND.
  assert (G : forall l, sl_scope l = mkScope sc [] -> sl_ch l = g_in g -> sl_rep l = 1%nat ->
    match l with SSC _ _ _ K _ => (0 < K)%nat | _ => True end -> exists m, smk_leaf l = Ok m).
  { intros l E1 E2 E3 E4. unfold smk_leaf. cbn [skel]. match goal with |- context [leaf_okb ?x] => assert (leaf_okb x = true) as -> end.
    - apply leaf_okb_spec. cbn [l_scope l_ch l_rep]. rewrite E1, E2, E3. cbn [query]. split; [|split; [exact Hn|lia]].
      split; [exact ND|]. cbn [query evidence]. split; [constructor|]. split; [intros v _ []|reflexivity].
    - destruct l as [l|s c r [|K] w]; [eauto|lia|eauto]. }
  unfold make_leaf, states_ok in *. destruct (g_layer g).
  - destruct (g_signed g && g_signed_in g)%bool; apply G; try reflexivity; auto.
  - destruct (g_signed g && g_signed_in g)%bool; apply G; try reflexivity; auto.
  - apply G; try reflexivity; auto.
  - destruct (g_signed g && g_signed_in g)%bool; apply G; try reflexivity; auto.
Qed.

Lemma ordpairs_scopes g ch cs : Forall2 (iok g) ch cs -> ForallOrdPairs (fun a b => forall v, In v (tscope a) -> ~ In v (tscope b)) ch ->
  ForallOrdPairs disjoint_scopes (map scope_of (map skel cs)).
Proof.
  intros F. induction F as [|t c ch cs I F IHF]; intros H; constructor.
  - inversion H as [|? ? H1 H2]; subst. clear - I F H1. induction F as [|t' c' ch cs I' F IHF]; constructor.
    + inversion H1; subst. intros v Hv Hv'. apply (io_vars _ _ _ I) in Hv. apply (io_vars _ _ _ I') in Hv'. eapply H2; eauto.
    + apply IHF. now inversion H1.
  - apply IHF. now inversion H.
Qed.

Lemma inst_all g d : unit_draws d -> states_ok g -> (1 <= g_in g)%nat -> (1 <= g_sum g)%nat -> forall t p,
  region_tree t -> NoDup (tscope t) -> g_in g = g_sum g \/ even_tree t -> exists m, instantiate g d p t = Ok m.
Proof.
  intros (UD & _) HK Hi Hs. induction t as [sc ch IH] using tnode_ind'. intros p RT ND HE. cbn [tscope] in ND. inversion RT as [sc' Hn|sc' ch' HL HP HF]; subst.
  - cbn [instantiate]. now apply leaf_all.
  - assert (ch <> []) as Hne by (destruct ch; [cbn in HL; lia|discriminate]). rewrite instantiate_node by assumption.
    assert (ND' : NoDup (flat_map tscope ch)) by (eapply Permutation_NoDup; eauto). pose proof (nodup_child ch ND') as NC.
    assert (EK : g_in g = g_sum g \/ Forall even_tree ch) by (destruct HE as [HE|HE]; [now left|inversion HE; subst; now right]).
    destruct (insts_all g d p ch) with (i := 0%nat) as (cs & E).
    { intros t Ht p'. rewrite Forall_forall in IH, HF, NC. apply IH; auto. destruct EK as [EK|EK]; [now left|right]. rewrite Forall_forall in EK. auto. }
    rewrite E. cbn [bind]. apply insts_inv in E.
    assert (F : Forall2 (iok g) ch cs).
    { clear - E HF NC Hs. induction E as [|t c ch cs (p' & E1) E IHE]; constructor; inversion HF; inversion NC; subst; [eapply inst_inv; eauto|auto]. }
    pose proof (Forall2_len _ _ _ F) as L. destruct cs as [|c0 [|c1 cs]]; cbn in L; try lia.
    assert (CH : forall c, In c (c0 :: c1 :: cs) -> schan c = schan c0).
    { destruct ch as [|t0 ch]; [easy|]. inversion F as [|? ? ? ? I0 F']; subst.
      assert (forall c, In c (c0 :: c1 :: cs) -> exists t, In t (t0 :: ch) /\ iok g t c) as HC.
      { clear - F. revert F. generalize (t0 :: ch) (c0 :: c1 :: cs). clear. intros l k F c Hc. induction F as [|t x ch cs I F IHF]; [destruct Hc|]. destruct Hc as [<-|Hc]; [exists t; split; [now left|exact I]|].
        destruct (IHF Hc) as (t' & Ht & I'). exists t'. split; [now right|exact I']. }
      intros c Hc. destruct (HC c Hc) as (t & Ht & It). rewrite (io_chan _ _ _ It), (io_chan _ _ _ I0). destruct HE as [HE|HE].
      - rewrite HE. destruct (tkids t), (tkids t0); reflexivity.
      - inversion HE as [? ? HH _]; subst. destruct (tkids t) eqn:Kt.
        + now rewrite (HH t t0 Ht (or_introl eq_refl) Kt).
        + destruct (tkids t0) eqn:K0; [|reflexivity]. rewrite (HH t0 t (or_introl eq_refl) Ht K0) in Kt. discriminate. }
    assert (BC : Forall built (map skel (c0 :: c1 :: cs))).
    { clear - F. revert F. generalize (c0 :: c1 :: cs). clear. intros l F. induction F as [|t c ch cs I F IHF]; constructor; [apply (io_built _ _ _ I)|exact IHF]. }
    destruct (mk_cat_false_intro (skel c0) (map skel (c1 :: cs))) as (sc' & EC).
    + change (Forall wf (map skel (c0 :: c1 :: cs))). eapply Forall_impl; [|exact BC]. intros. now apply built_wf.
    + intros x Hx. change (In x (map skel (c0 :: c1 :: cs))) in Hx. apply in_map_iff in Hx. destruct Hx as (c & <- & Hc). exact (CH c Hc).
    + eapply (ordpairs_scopes g ch (c0 :: c1 :: cs)); [exact F|]. now apply ordpairs_perm.
    + change (skel c0 :: map skel (c1 :: cs)) with (map skel (c0 :: c1 :: cs)) in EC. unfold smk_product. rewrite EC. cbn [bind].
      apply make_sum_all; [|assumption|intros; apply UD].
      cbn [skel]. apply (b_product (map skel (c0 :: c1 :: cs))); [exact BC|]. unfold mk_product. cbn [map] in EC |- *. rewrite EC. reflexivity.
Qed.

Lemma inst_needs g d : (1 <= g_sum g)%nat -> forall t p m, region_tree t -> NoDup (tscope t) -> instantiate g d p t = Ok m ->
  g_in g = g_sum g \/ even_tree t.
Proof.
  intros Hs. destruct (Nat.eq_dec (g_in g) (g_sum g)) as [E|NE]; [now left|]. intros t p m RT ND H. right. revert p m RT ND H.
  induction t as [sc ch IH] using tnode_ind'. intros p m RT ND H. cbn [tscope] in ND. inversion RT as [sc' Hn|sc' ch' HL HP HF]; subst.
  - constructor; [intros a b []|constructor].
  - assert (ND' : NoDup (flat_map tscope ch)) by (eapply Permutation_NoDup; eauto). pose proof (nodup_child ch ND') as NC.
    assert (FI : forall cs, Forall2 (fun t m => exists p', instantiate g d p' t = Ok m) ch cs -> Forall2 (iok g) ch cs).
    { intros cs E. clear - E HF NC Hs. induction E as [|t c ch cs (p' & E1) E IHE]; constructor; inversion HF; inversion NC; subst; [eapply inst_inv; eauto|auto]. }
    destruct (node_inv g d p sc ch m HL HP Hs FI H) as (_ & cs & sc' & prod & F & _ & _ & EC). pose proof (FI cs F) as I. constructor.
    + assert (BC : Forall built (map skel cs)).
      { clear - I. induction I as [|t c ch cs I F IHF]; constructor; [apply (io_built _ _ _ I)|exact IHF]. }
      destruct (proj1 (mk_cat_iff false (map skel cs) BC) (ex_intro _ _ EC)) as (_ & CH & _).
      assert (forall a, In a ch -> exists c, In c cs /\ iok g a c) as HC.
      { clear - I. intros a Ha. induction I as [|t x ch cs I F IHF]; [destruct Ha|]. destruct Ha as [<-|Ha]; [exists x; split; [now left|exact I]|].
        destruct (IHF Ha) as (t' & Ht & I'). exists t'. split; [now right|exact I']. }
      intros a b Ha Hb Ka. destruct (HC a Ha) as (x & Hx & Ia), (HC b Hb) as (y & Hy & Ib).
      assert (schan x = schan y) as E by (apply CH; apply in_map; assumption). rewrite (io_chan _ _ _ Ia), (io_chan _ _ _ Ib), Ka in E. destruct (tkids b); [reflexivity|contradiction].
    + clear - F IH HF NC. induction F as [|t c ch cs (p' & E1) F IHF]; constructor; inversion HF; inversion NC; inversion IH; subst; [eauto|auto].
Qed.
