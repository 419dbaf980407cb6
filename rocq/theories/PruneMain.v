From Coq Require Import List Arith Bool Reals Lia Lra.
From Verif Require Import Base ScopeModel ScopeProofs CircuitModel CircuitSpec CircuitBasics CircuitEval CircuitProps MargProofs
  PruneModel PruneSpec PruneProofs PruneTop.
Import ListNotations.
Local Open Scope R_scope.

Definition settled (m : module) : Prop := forall x, node_of x m -> ~ collapsible x.

Lemma mixes_sub m n : mixes_single_channels m -> node_of n m -> mixes_single_channels n.
Proof.
  intros G H x Hx. apply G. revert Hx. clear G. revert x. induction H; intros x Hx; auto.
  - apply node_sum. auto.
  - apply node_product. auto.
  - eapply node_cat; eauto.
Qed.

Lemma forall2_map {A B} (g : A -> B) l l' : Forall2 (fun a b => g b = g a) l l' -> map g l' = map g l.
Proof. induction 1; cbn; congruence. Qed.

Lemma forall2_impl {A B} (P Q : A -> B -> Prop) l l' : (forall a b, P a b -> Q a b) -> Forall2 P l l' -> Forall2 Q l l'.
Proof. induction 2; constructor; auto. Qed.

Lemma keeps_map R0 cs cs' : Forall2 (keeps R0) cs cs' ->
  map out_shape cs' = map out_shape cs /\ map scope_of cs' = map scope_of cs /\ map fts cs' = map fts cs /\ map is_sumb cs' = map is_sumb cs.
Proof.
  intros H. repeat split; apply forall2_map; eapply forall2_impl; try exact H; intros a b []; assumption.
Qed.

Lemma keeps_sum R0 ch ch' co lg : wf (MSum ch co R0 lg) -> uniform R0 (MSum ch co R0 lg) -> keeps R0 ch ch' ->
  keeps R0 (MSum ch co R0 lg) (MSum ch' co R0 lg).
Proof.
  intros W U K. destruct K as [K1 K2 K3 K4 K5 K6 K7 K8 K9]. destruct W as [W Hco]. destruct U as [U _]. constructor.
  - split; assumption.
  - exact K2.
  - split; [exact K3|reflexivity].
  - cbn [out_shape]. now rewrite K4.
  - exact K5.
  - exact K6.
  - reflexivity.
  - intros B. eapply built_sum_swap; [exact B|reflexivity|exact K4|]. apply K8. exact (built_cases _ B).
  - intros s f c r Hf Hc Hr. cbn [out_shape features channels] in Hf, Hc.
    assert (0 < channels (out_shape ch))%nat by (apply wf_cpos, wf_wf1, W).
    rewrite !pev_sum by (rewrite ?K4; assumption). rewrite K4, (uniform_reps R0 ch W U), (uniform_reps R0 ch' K1 K3).
    apply bsum_ext. intros ci Hci. f_equal. rewrite (bidx_id R0 r Hr). apply K9; assumption.
Qed.
Lemma keeps_product R0 ch ch' : keeps R0 ch ch' -> keeps R0 (MProduct ch) (MProduct ch').
Proof.
  intros [K1 K2 K3 K4 K5 K6 K7 K8 K9]. constructor; try assumption.
  - cbn [out_shape]. now rewrite K4.
  - cbn [fts]. now rewrite K6.
  - reflexivity.
  - intros B. apply built_cases in B. eapply (b_product [ch']); [constructor; [auto|constructor]|reflexivity].
  - intros s f c r Hf Hc Hr. rewrite !pev_product, K4. apply bprod_ext. intros f' Hf'. apply K9; assumption.
Qed.
Lemma catpick_keeps R0 s r : (r < R0)%nat -> forall (d2 : bool) cs cs', Forall2 (keeps R0) cs cs' -> forall f c,
  (if d2 then Forall (fun x => (f < features (out_shape x))%nat) cs else Forall (fun x => (c < channels (out_shape x))%nat) cs) ->
  pr (catpick d2 (map (fun ch => (out_shape ch, evalm s ch)) cs') f c r) = pr (catpick d2 (map (fun ch => (out_shape ch, evalm s ch)) cs) f c r).
Proof.
  intros Hr d2 cs cs' H. induction H as [|a b cs cs' K H IH]; intros f c HB; [reflexivity|].
  cbn [map catpick]. rewrite (k_sh _ _ _ K). destruct d2.
  - pose proof (Forall_inv HB) as Ha. cbv beta in Ha. destruct (Nat.ltb_spec c (channels (out_shape a))).
    + apply (k_ev _ _ _ K s f c r); assumption.
    + apply IH. exact (Forall_inv_tail HB).
  - pose proof (Forall_inv HB) as Ha. cbv beta in Ha. destruct (Nat.ltb_spec f (features (out_shape a))).
    + apply (k_ev _ _ _ K s f c r); assumption.
    + apply IH. exact (Forall_inv_tail HB).
Qed.
Lemma keeps_cat R0 d2 sc cs cs' : wf (MCat d2 sc cs) -> aligned (MCat d2 sc cs) -> Forall2 (keeps R0) cs cs' ->
  keeps R0 (MCat d2 sc cs) (MCat d2 sc cs').
Proof.
  intros W A H. destruct (keeps_map R0 cs cs' H) as (E1 & E2 & E3 & E4).
  assert (OS : out_shape (MCat d2 sc cs') = out_shape (MCat d2 sc cs)) by (cbn [out_shape]; now rewrite E1).
  assert (F' : forall P : module -> Prop, (forall a b, keeps R0 a b -> P b) -> Forall P cs').
  { intros P HP. clear -H HP. induction H; constructor; eauto. }
  constructor.
  - cbn [wf] in *. destruct W as (Hne & _ & W). split; [destruct H; [congruence|discriminate]|].
    split; [apply go_Forall, F'; intros a b K; apply K|].
    destruct H as [|a b cs cs' K H]; [congruence|]. cbn [hd] in *. destruct d2.
    + destruct W as (W1 & W2 & W3). rewrite (k_sh _ _ _ K), (k_sc _ _ _ K).
      assert (T : forall y, In y (b :: cs') -> exists x, In x (a :: cs) /\ out_shape y = out_shape x /\ scope_of y = scope_of x).
      { assert (Forall2 (keeps R0) (a :: cs) (b :: cs')) as H' by (constructor; assumption). clear -H'.
        induction H' as [|a1 b1 l l' K1 _ IH]; intros y Hy; [destruct Hy|]. destruct Hy as [<-|Hy]; [exists a1; split; [now left|split; apply K1]|].
        destruct (IH y Hy) as (x & Hx & T). exists x. split; [now right|exact T]. }
      rewrite Forall_forall in W1. split; [apply Forall_forall; intros y Hy; destruct (T y Hy) as (x & Hx & -> & _); now apply W1|].
      split; [|exact W3]. intros y y' Hy Hy'. destruct (T y Hy) as (x & Hx & _ & ->), (T y' Hy') as (x' & Hx' & _ & ->). now apply W2.
    + destruct W as (W1 & W2 & W3 & W4). rewrite (k_sh _ _ _ K).
      assert (T : forall y, In y (b :: cs') -> exists x, In x (a :: cs) /\ out_shape y = out_shape x /\ scope_of y = scope_of x).
      { assert (Forall2 (keeps R0) (a :: cs) (b :: cs')) as H' by (constructor; assumption). clear -H'.
        induction H' as [|a1 b1 l l' K1 _ IH]; intros y Hy; [destruct Hy|]. destruct Hy as [<-|Hy]; [exists a1; split; [now left|split; apply K1]|].
        destruct (IH y Hy) as (x & Hx & T). exists x. split; [now right|exact T]. }
      assert (T' : forall x, In x (a :: cs) -> exists y, In y (b :: cs') /\ scope_of y = scope_of x).
      { assert (Forall2 (keeps R0) (a :: cs) (b :: cs')) as H' by (constructor; assumption). clear -H'.
        induction H' as [|a1 b1 l l' K1 _ IH]; intros x Hx; [destruct Hx|]. destruct Hx as [<-|Hx]; [exists b1; split; [now left|apply K1]|].
        destruct (IH x Hx) as (y & Hy & T). exists y. split; [now right|exact T]. }
      rewrite Forall_forall in W1. split; [apply Forall_forall; intros y Hy; destruct (T y Hy) as (x & Hx & -> & _); now apply W1|].
      split; [rewrite E2; exact W2|]. split.
      * split; [exact (proj1 W3)|]. intros v Hv. destruct (proj2 W3 v Hv) as (x & Hx & Hv'). destruct (T' x Hx) as (y & Hy & E).
        exists y. split; [exact Hy|]. now rewrite E.
      * intros v. rewrite W4. split.
        -- intros (x & Hx & Hv). destruct (T' x Hx) as (y & Hy & E). exists y. split; [exact Hy|]. now rewrite E.
        -- intros (y & Hy & Hv). destruct (T y Hy) as (x & Hx & _ & E). exists x. split; [exact Hx|]. now rewrite <- E.
  - apply aligned_cat. apply aligned_cat in A. destruct A as [_ A2]. split; [apply F'; intros a b K; apply K|].
    intros Ed. specialize (A2 Ed). rewrite E3. clear -A2 H. revert A2. generalize (hd [] (map fts cs)). intros h A2.
    induction H as [|a b l l' K H IH]; [constructor|]. constructor; [rewrite (k_fts _ _ _ K); exact (Forall_inv A2)|apply IH; exact (Forall_inv_tail A2)].
  - apply uniform_cat, F'. intros a b K. apply K.
  - exact OS.
  - reflexivity.
  - cbn [fts]. now rewrite E3.
  - reflexivity.
  - intros B. apply built_cases in B. destruct B as [B1 B2]. eapply b_cat; [|eapply mk_cat_swap; eassumption].
    clear -H B1. induction H as [|a b l l' K H IH]; [constructor|]. constructor; [apply K; exact (Forall_inv B1)|apply IH; exact (Forall_inv_tail B1)].
  - intros s f c r Hf Hc Hr. unfold pev. cbn [evalm]. apply (catpick_keeps R0 s r Hr d2 cs cs' H).
    cbn [wf] in W. destruct W as (_ & _ & W). destruct d2.
    + destruct W as (W1 & _). destruct cs as [|c0 cs]; [constructor|]. cbn [hd] in W1. eapply Forall_impl; [|exact W1].
      intros x E. cbv beta in E. rewrite E. exact Hf.
    + destruct W as (W1 & _). destruct cs as [|c0 cs]; [constructor|]. cbn [hd] in W1. eapply Forall_impl; [|exact W1].
      intros x E. cbv beta in E. rewrite E. exact Hc.
Qed.

Lemma settled_sum ch co rr lg : settled ch -> ~ collapsible (MSum ch co rr lg) -> settled (MSum ch co rr lg).
Proof. intros S N x Hx. inversion Hx; subst; [exact N|]. now apply S. Qed.
Lemma settled_leaf l : settled (MLeaf l).
Proof. intros x Hx. inversion Hx; subst. intros (d2 & sc & cs & co & rr & lg & E & _). discriminate. Qed.

Lemma prune_cat_eq n d2 sc cs : prune (S n) (MCat d2 sc cs) =
  bind ((fix go (l : list module) : result (list module) :=
                   match l with
                   | [] => Ok []
                   | c :: rest => bind (prune n c) (fun c' => bind (go rest) (fun r' => Ok (c' :: r')))
                   end) cs) (fun cs' => Ok (MCat d2 sc cs')).
Proof. reflexivity. Qed.

Notation prune_list n := (fix go (l : list module) : result (list module) :=
                   match l with
                   | [] => Ok []
                   | c :: rest => bind (prune n c) (fun c' => bind (go rest) (fun r' => Ok (c' :: r')))
                   end).

Lemma prune_is_sum : forall k m m', prune k m = Ok m' -> is_sumb m' = is_sumb m.
Proof.
  induction k as [|k IHk]; intros m m' Ex; [discriminate|]. destruct m as [l|c1 co1 rr1 lg1|d3 sc3 cs3|c1].
  - injection Ex as <-. reflexivity.
  - cbn [prune] in Ex. destruct c1 as [l|c2 co2 rr2 lg2|d4 sc4 cs4|c2].
    + injection Ex as <-. reflexivity.
    + destruct (prune k (MSum c2 co2 rr2 lg2)); [|discriminate]. injection Ex as <-. reflexivity.
    + destruct (forallb is_sumb cs4 && _)%bool.
      * unfold merge_sums in Ex. destruct (scaled_all _ _ _); cbn [bind] in Ex; [|discriminate].
        destruct (wconcat _); cbn [bind] in Ex; [|discriminate]. destruct (mk_cat _ _); cbn [bind] in Ex; [|discriminate].
        unfold set_weights in Ex. do 3 (destruct (negb _); [discriminate|]). cbn [bind] in Ex. rewrite (IHk _ _ Ex). reflexivity.
      * destruct (prune k (MCat d4 sc4 cs4)); [|discriminate]. injection Ex as <-. reflexivity.
    + destruct (prune k (MProduct c2)); [|discriminate]. injection Ex as <-. reflexivity.
  - rewrite prune_cat_eq in Ex. destruct (prune_list k cs3); [|discriminate]. injection Ex as <-. reflexivity.
  - cbn [prune] in Ex. destruct (prune k c1); [|discriminate]. injection Ex as <-. reflexivity.
Qed.
Lemma prune_to_cat k m d2 sc cs' : prune k m = Ok (MCat d2 sc cs') -> exists cs, m = MCat d2 sc cs /\ map is_sumb cs' = map is_sumb cs.
Proof.
  intros Ex. pose proof (prune_is_sum _ _ _ Ex) as Z. destruct k as [|k]; [discriminate|].
  destruct m as [l|c1 co1 rr1 lg1|d3 sc3 cs3|c1]; try discriminate.
  - rewrite prune_cat_eq in Ex. destruct (prune_list k cs3) as [l|] eqn:E; [|discriminate]. injection Ex as -> -> ->.
    exists cs3. split; [reflexivity|]. clear Z. revert cs' E. induction cs3 as [|x l IHl]; intros cs' E; [injection E as <-; reflexivity|].
    destruct (prune k x) as [x'|] eqn:Ex; [|discriminate]. cbn [bind] in E. destruct (prune_list k l) as [l'|] eqn:El; [|discriminate].
    cbn [bind] in E. injection E as <-. cbn [map]. rewrite (prune_is_sum _ _ _ Ex). f_equal. now apply IHl.
  - cbn [prune] in Ex. destruct (prune k c1); discriminate.
Qed.

Lemma prune_ok R0 : forall n m, (msize m <= n)%nat -> wf m -> aligned m -> uniform R0 m -> mixes_single_channels m ->
  exists m', prune n m = Ok m' /\ keeps R0 m m' /\ settled m'.
Proof.
  induction n as [|n IH]; intros m Hn W A U G; [destruct m; cbn in Hn; lia|].
  destruct m as [l|ch co rr lg|d2 sc cs|ch].
  - exists (MLeaf l). split; [reflexivity|]. split; [now apply keeps_refl|apply settled_leaf].
  - destruct (proj2 U : rr = R0).
    assert (SUB : (forall d2 sc cs, ch = MCat d2 sc cs -> (forallb is_sumb cs && negb (Nat.eqb (length cs) 0))%bool = false) ->
      exists ch', prune n ch = Ok ch' /\ keeps rr (MSum ch co rr lg) (MSum ch' co rr lg) /\ settled (MSum ch' co rr lg)).
    { intros NC. destruct (IH ch) as (ch' & E & K & S).
      - cbn in Hn. lia.
      - exact (proj1 W).
      - exact A.
      - exact (proj1 U).
      - eapply mixes_sub; [exact G|apply node_sum, node_refl].
      - exists ch'. split; [exact E|]. split; [now apply keeps_sum|]. apply settled_sum; [exact S|].
        intros (d2 & sc & cs' & co' & rr' & lg' & Em & Hne & Hs). injection Em as Ech _ _ _. subst ch'.
        destruct (prune_to_cat _ _ _ _ _ E) as (cs & -> & ND1). specialize (NC _ _ _ eq_refl).
        assert (T : forallb is_sumb cs' = true).
        { apply forallb_forall. intros x Hx. rewrite Forall_forall in Hs. destruct (Hs x Hx) as (? & ? & ? & ? & ->). reflexivity. }
        assert (FM : forall l, forallb is_sumb l = forallb (fun b => b) (map is_sumb l)) by (induction l as [|y l IHl]; [reflexivity|]; cbn; now rewrite IHl).
        rewrite FM, <- ND1, <- FM, T in NC. cbn [andb] in NC. destruct cs; [|discriminate]. destruct cs'; [congruence|discriminate]. }
    destruct ch as [l|c1 co1 rr1 lg1|d2 sc cs|c1].
    + exists (MSum (MLeaf l) co rr lg). split; [reflexivity|]. split; [now apply keeps_refl|].
      apply settled_sum; [apply settled_leaf|]. intros (? & ? & ? & ? & ? & ? & E & _). discriminate.
    + destruct (SUB ltac:(discriminate)) as (ch' & E & K & S). exists (MSum ch' co rr lg). split; [|split; assumption].
      cbn [prune]. rewrite E. reflexivity.
    + destruct (forallb is_sumb cs && negb (Nat.eqb (length cs) 0))%bool eqn:EC.
      * assert (d2 = true) as ->.
        { destruct d2; [reflexivity|]. exfalso. destruct (G _ (node_refl _)) as [_ K]. exact (K sc cs eq_refl). }
        apply andb_true_iff in EC. destruct EC as [EC1 EC2]. assert (Hne : cs <> []) by (intros ->; discriminate).
        destruct (merge_ok rr sc cs co lg W A U Hne EC1 G) as (lg' & EM & K).
        pose proof (merge_size rr sc cs co lg W A U Hne EC1 G lg') as Z.
        destruct (IH (MSum (MCat true sc (new_inputs cs)) co rr lg')) as (m' & E & K' & S).
        -- lia.
        -- apply K.
        -- apply K.
        -- apply K.
        -- apply (merge_good rr sc cs co lg W A U EC1 G).
        -- exists m'. split; [|split; [eapply keeps_trans; eassumption|exact S]].
           cbn [prune]. rewrite EC1, EC2. cbn [andb]. rewrite EM. cbn [bind]. exact E.
      * destruct (SUB ltac:(intros ? ? ? [= <- <- <-]; exact EC)) as (ch' & E & K & S). exists (MSum ch' co rr lg). split; [|split; assumption].
        cbn [prune]. rewrite EC. rewrite E. reflexivity.
    + destruct (SUB ltac:(discriminate)) as (ch' & E & K & S). exists (MSum ch' co rr lg). split; [|split; assumption].
      cbn [prune]. rewrite E. reflexivity.
  - assert (L : exists cs', ((fix go (l : list module) : result (list module) :=
                   match l with
                   | [] => Ok []
                   | c :: rest => bind (prune n c) (fun c' => bind (go rest) (fun r' => Ok (c' :: r')))
                   end) cs) = Ok cs' /\ Forall2 (keeps R0) cs cs' /\ Forall settled cs').
    { assert (Wc : Forall wf cs) by (eapply wf_cat_children; exact W).
      assert (Ac : Forall aligned cs) by (apply (proj1 (aligned_cat _ _ _)) in A; apply A).
      assert (Uc : Forall (uniform R0) cs) by (apply (proj1 (uniform_cat _ _ _ _) U)).
      assert (Gc : Forall mixes_single_channels cs).
      { apply Forall_forall. intros x Hx. eapply mixes_sub; [exact G|]. eapply node_cat; [exact Hx|apply node_refl]. }
      assert (Zc : (list_sum (map msize cs) <= n)%nat) by (cbn [msize] in Hn; lia).
      clear -IH Wc Ac Uc Gc Zc. induction cs as [|x l IHl]; [exists []; repeat split; constructor|].
      cbn [map] in Zc. unfold list_sum in Zc. cbn [fold_right] in Zc. fold (list_sum (map msize l)) in Zc.
      destruct (IH x ltac:(lia) (Forall_inv Wc) (Forall_inv Ac) (Forall_inv Uc) (Forall_inv Gc)) as (x' & Ex & Kx & Sx).
      destruct (IHl (Forall_inv_tail Wc) (Forall_inv_tail Ac) (Forall_inv_tail Uc) (Forall_inv_tail Gc) ltac:(lia)) as (l' & El & Kl & Sl).
      exists (x' :: l'). rewrite Ex. cbn [bind]. rewrite El. cbn [bind]. split; [reflexivity|]. split; constructor; assumption. }
    destruct L as (cs' & E & K & S). exists (MCat d2 sc cs'). rewrite prune_cat_eq, E. split; [reflexivity|].
    split; [now apply keeps_cat|]. intros x Hx. inversion Hx as [| | |? c ? ? ? Hc Hx']; subst.
    + intros (? & ? & ? & ? & ? & ? & E' & _). discriminate.
    + rewrite Forall_forall in S. exact (S c Hc x Hx').
  - destruct (IH ch) as (ch' & E & K & S).
    + cbn in Hn. lia.
    + exact W.
    + exact A.
    + exact U.
    + eapply mixes_sub; [exact G|apply node_product, node_refl].
    + exists (MProduct ch'). cbn [prune]. rewrite E. split; [reflexivity|]. split; [now apply keeps_product|].
      intros x Hx. inversion Hx; subst; [intros (? & ? & ? & ? & ? & ? & E' & _); discriminate|]. now apply S.
Qed.

Lemma prune_sums_ok R0 m : built m -> aligned m -> uniform R0 m -> mixes_single_channels m ->
  exists m', prune_sums m = Ok m' /\ built m' /\ aligned m' /\ uniform R0 m' /\ out_shape m' = out_shape m /\ scope_of m' = scope_of m /\
    fts m' = fts m /\
    (forall x f c r, (f < features (out_shape m))%nat -> (c < channels (out_shape m))%nat -> (r < R0)%nat ->
       prob m' x f c r = prob m x f c r) /\
    (forall n, node_of n m' -> ~ collapsible n).
Proof.
  intros B A U G. destruct (prune_ok R0 (msize m) m (le_n _) (built_wf _ B) A U G) as (m' & E & K & S).
  exists m'. split; [exact E|]. destruct K as [K1 K2 K3 K4 K5 K6 K7 K8 K9]. do 6 (split; [now auto|]).
  split; [|exact S]. intros x f c r Hf Hc Hr. exact (K9 (leaf_score x) f c r Hf Hc Hr).
Qed.
