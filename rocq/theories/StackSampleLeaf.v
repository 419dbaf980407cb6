(** Sampling from the leaf layer of a stack, in any repetition. *)
From Coq Require Import List Arith Bool Reals Lia Lra Permutation FunctionalExtensionality.
From Verif Require Import Base ScopeModel ScopeProofs CircuitModel CircuitSpec CircuitBasics CircuitEval Integral CircuitMarg CircuitProps
  SampleModel SampleSpec SampleExp SampleProofs SampleApi EmModel SplitModel SplitProofs LayerModel LayerSpec LayerProofs FactorModel FactorProofs FactorTop
  StackModel StackSpec StackProofs StackDist StackTop StackRat StackPostModel StackSampleModel StackSampleStep StackSamplePair.
Import ListNotations.
Local Open Scope R_scope.

Section Leaves.
Variables (D : nat -> domain) (W : nat) (ev : option row) (e : row).
Variables (h : nat -> R -> R) (I : leaf -> nat -> nat -> nat -> R) (rep : nat).
Hypothesis hpos : forall v a, 0 <= h v a.
Notation spec := (spec D e).
Notation tst := (tst e h).
Notation sc_h := (sc_h e I).
Notation Tset := (Tset e h).
Notation cat_sample := (cat_sample W ev).
Definition Q1r m f c := prob m e f c rep.
Definition Qhr m f c := pev sc_h m f c rep.
Definition tfullr (m : module) (t : ctx) : Prop :=
  length (c_ci t) = features (out_shape m) /\ length (c_mask t) = features (out_shape m) /\ c_rep t = rep /\
  forall f, (f < features (out_shape m))%nat -> (nth f (c_ci t) 0 < channels (out_shape m))%nat.
Definition Rsetr (m : module) (t : ctx) : R :=
  bprod (features (out_shape m)) (fun f => if nth f (c_mask t) false
     then Qhr m f (nth f (c_ci t) 0%nat) / Q1r m f (nth f (c_ci t) 0%nat) else 1).
Definition rspec (m : module) : Prop := forall t, tfullr m t ->
  (forall f, (f < features (out_shape m))%nat -> nth f (c_mask t) false = true -> Q1r m f (nth f (c_ci t) 0%nat) <> 0) ->
  spec (sample_m false W ev m t) (Cset m (c_mask t)) (Tset m (c_mask t)) (Rsetr m t).
Lemma validate_fullr widths n nr t : In (length (c_ci t)) widths -> length (c_ci t) = length (c_mask t) -> c_rep t = rep ->
  (forall f, (f < length (c_ci t))%nat -> (nth f (c_ci t) 0 < n)%nat) -> (0 < n)%nat -> (rep < nr)%nat ->
  validate widths n nr t = true.
Proof.
  intros Hin HL Hr Hc Hn Hnr. unfold validate. rewrite HL, Nat.eqb_refl. rewrite <- HL.
  assert (existsb (Nat.eqb (length (c_ci t))) widths = true) as ->.
  { apply existsb_exists. exists (length (c_ci t)). split; [assumption|apply Nat.eqb_refl]. }
  destruct t as [ci mask r]. cbn [c_ci c_mask c_rep] in *. rewrite active_below_full by assumption.
  subst r. destruct n; [lia|]. destruct nr; [lia|]. cbn [andb Nat.leb]. now apply Nat.ltb_lt.
Qed.
Lemma leaf_rspec l : leaf_okb l = true -> (rep < l_rep l)%nat -> leaf_int D h I (MLeaf l) -> cols_fine W (MLeaf l) -> rspec (MLeaf l).
Proof.
  intros Hok Hrl HI Hcols t (Lc & Lm & Hr & Hch) HQ.
  pose proof (proj1 (leaf_okb_spec l) Hok) as (Hv & Hne & Hcp & Hrp).
  cbn [out_shape features channels] in *.
  assert (NoDup (query (l_scope l))) as ND by apply Hv.
  set (q := query (l_scope l)) in *.
  assert (forall x, sample_m false W ev (MLeaf l) t x = fill_cells false l rep 0 q (combine (c_ci t) (c_mask t)) x) as EQ.
  { intros x. cbn [sample_m]. unfold sample_leaf.
    rewrite validate_fullr; auto; [| |now rewrite Lc, Lm|].
    2:{ right. left. now rewrite Lc. }
    2:{ rewrite Lc. exact Hch. }
    unfold scope_cols. fold q.
    assert (forallb (fun v => Nat.ltb v W) q = true) as ->.
    { apply forallb_forall. intros v Hv'. apply Nat.ltb_lt. now apply Hcols. }
    unfold slice_leaf. rewrite Lm, Nat.eqb_refl.
    assert (forallb (fun p : nat * bool => Nat.ltb (fst p) (l_ch l)) (combine (c_ci t) (c_mask t)) = true) as ->.
    { apply forallb_forall. intros [c b] Hin. cbn [fst]. apply in_combine_l in Hin.
      apply In_nth with (d := 0%nat) in Hin. destruct Hin as (f & Hf & <-). apply Nat.ltb_lt. apply Hch. now rewrite <- Lc. }
    rewrite Hr.
    destruct (row_active q (combine (c_ci t) (c_mask t)) x) eqn:RA; [reflexivity|].
    clear - RA. revert RA. generalize (combine (c_ci t) (c_mask t)). intros cm. generalize 0%nat.
    revert cm. induction q as [|v q IH]; intros cm f RA; [reflexivity|].
    destruct cm as [|[c b] cm]; [reflexivity|]. unfold row_active in RA. cbn [combine existsb fst snd] in RA.
    apply orb_false_iff in RA. destruct RA as [RA1 RA2]. cbn [fill_cells].
    destruct (x v), b; cbn in RA1; try discriminate; apply IH; exact RA2. }
  eapply spec_ext; [intros x; symmetry; apply EQ| | | |apply (fill_spec D e h I hpos l rep q (c_ci t) (c_mask t) 0 ND Lc Lm)].
  - intros v. unfold Cset. cbn [out_shape features]. fold q. split.
    + intros (j & Hj & Hm & ->). exists j. repeat split; auto. rewrite nthq_leaf by assumption. now left.
    + intros (j & Hj & Hm & Hin). exists j. repeat split; auto. rewrite nthq_leaf in Hin by assumption.
      destruct Hin as [<-|[]]. reflexivity.
  - intros y. unfold Tset. cbn [out_shape features]. apply bprod_ext. intros j Hj.
    rewrite nthq_leaf by assumption. reflexivity.
  - unfold Rsetr. cbn [out_shape features]. apply bprod_ext. intros j Hj. reflexivity.
  - reflexivity.
  - intros j Hj Hm. apply HI; [now left|]. repeat split; [exact Hj|apply Hch; exact Hj|exact Hrl].
  - intros j Hj Hm. apply (HQ j Hj Hm).
Qed.

Lemma cat1_go_rspec t : c_rep t = rep -> length (c_mask t) = length (c_ci t) ->
  forall l off, Forall wf l -> Forall rspec l ->
  (off + nsum (map (fun c => features (out_shape c)) l) = length (c_ci t))%nat ->
  let F := nsum (map (fun c => features (out_shape c)) l) in
  (forall c f, In c l -> (f < F)%nat -> (nth (off + f) (c_ci t) 0 < channels (out_shape c))%nat) ->
  (forall f g, (f < F)%nat -> (g < F)%nat -> f <> g -> disjl (nthq (MCat false (mkScope [] []) l) f) (nthq (MCat false (mkScope [] []) l) g)) ->
  (forall f, (f < F)%nat -> nth (off + f) (c_mask t) false = true -> Q1r (MCat false (mkScope [] []) l) f (nth (off + f) (c_ci t) 0%nat) <> 0) ->
  spec (cat_sample false t l off)
    (fun v => exists f, (f < F)%nat /\ nth (off + f) (c_mask t) false = true /\ In v (nthq (MCat false (mkScope [] []) l) f))
    (fun y => bprod F (fun f => if nth (off + f) (c_mask t) false then tst (nthq (MCat false (mkScope [] []) l) f) y else 1))
    (bprod F (fun f => if nth (off + f) (c_mask t) false
       then Qhr (MCat false (mkScope [] []) l) f (nth (off + f) (c_ci t) 0%nat) / Q1r (MCat false (mkScope [] []) l) f (nth (off + f) (c_ci t) 0%nat) else 1)).
Proof.
  intros Hrep HLm. set (es := mkScope [] []). induction l as [|m l IH]; intros off Wl Sl HL F Hch HD HQ.
  - subst F. eapply spec_ext; [| | |reflexivity|apply spec_skip].
    + reflexivity.
    + intros v. split; [tauto|]. intros (f & Hf & _). cbn in Hf. lia.
    + reflexivity.
  - inversion Wl as [|? ? Wm Wl']; subst. inversion Sl as [|? ? Sm Sl']; subst.
    cbn [map nsum] in HL. subst F. cbn [map nsum] in *.
    set (Fm := features (out_shape m)) in *. set (Fl := nsum (map (fun c => features (out_shape c)) l)) in *.
    pose proof (wf_len m (wf_wf1 m Wm)) as Lm'.
    assert (forall f, (f < Fm)%nat -> nthq (MCat false es (m :: l)) f = nthq m f) as N1.
    { intros f Hf. unfold nthq. cbn [fts map concat]. rewrite app_nth1; [reflexivity|]. unfold Fm in Hf. lia. }
    assert (forall f, nthq (MCat false es (m :: l)) (Fm + f) = nthq (MCat false es l) f) as N2.
    { intros f. unfold nthq. cbn [fts map concat]. rewrite app_nth2 by (unfold Fm; lia). f_equal. unfold Fm. lia. }
    assert (forall s f c, (f < Fm)%nat -> pev s (MCat false es (m :: l)) f c rep = pev s m f c rep) as E1.
    { intros s f c Hf. unfold pev. cbn [evalm map catpick]. fold Fm.
      destruct (Nat.ltb_spec f Fm); [reflexivity|lia]. }
    assert (forall s f c, pev s (MCat false es (m :: l)) (Fm + f) c rep = pev s (MCat false es l) f c rep) as E2.
    { intros s f c. unfold pev. cbn [evalm map catpick]. fold Fm.
      destruct (Nat.ltb_spec (Fm + f) Fm); [lia|]. do 2 f_equal. lia. }
    assert (tfullr m (child_ctx false off (out_shape m) t)) as Tf.
    { unfold tfullr, child_ctx, slice_range. cbn [c_ci c_mask c_rep]. fold Fm.
      rewrite !firstn_length, !skipn_length. repeat split; [lia|lia|assumption|].
      intros f Hf. rewrite nth_firstn_skipn by assumption. apply Hch; [now left|lia]. }
    assert (spec (sample_m false W ev m (child_ctx false off (out_shape m) t))
       (Cset m (c_mask (child_ctx false off (out_shape m) t))) (Tset m (c_mask (child_ctx false off (out_shape m) t)))
       (Rsetr m (child_ctx false off (out_shape m) t))) as S1.
    { apply Sm; [exact Tf|]. fold Fm. cbn [child_ctx slice_range c_mask c_ci]. fold Fm. intros f Hf.
      rewrite !nth_firstn_skipn by assumption. intros Hm. unfold Q1r. rewrite prob_pev, <- E1 by assumption.
      apply (HQ f); [lia|exact Hm]. }
    specialize (IH (off + Fm)%nat Wl' Sl' ltac:(lia)). cbv zeta in IH. fold es Fl in IH.
    assert (forall x, cat_sample false t (m :: l) off x = pbind (sample_m false W ev m (child_ctx false off (out_shape m) t) x) (cat_sample false t l (off + Fm))) as EQ.
    { intros x. cbn [cat_sample]. unfold child_ok. fold Fm.
      destruct (Nat.leb_spec (off + Fm) (length (c_ci t))); [|lia]. reflexivity. }
    eapply spec_ext; [intros x; symmetry; apply EQ| | | |eapply spec_seq; [exact S1|apply IH|]].
    + intros v. unfold Cset. cbn [child_ctx slice_range c_mask]. fold Fm. split.
      * intros [(f & Hf & Hm & Hin)|(f & Hf & Hm & Hin)].
        -- rewrite nth_firstn_skipn in Hm by assumption. exists f. rewrite N1 by assumption. repeat split; auto. lia.
        -- exists (Fm + f)%nat. rewrite N2. rewrite Nat.add_assoc. repeat split; auto. lia.
      * intros (f & Hf & Hm & Hin). destruct (Nat.ltb_spec f Fm) as [Lt|Ge].
        -- left. exists f. rewrite nth_firstn_skipn by assumption. rewrite N1 in Hin by assumption. auto.
        -- right. exists (f - Fm)%nat. replace f with (Fm + (f - Fm))%nat in Hin, Hm by lia. rewrite N2 in Hin.
           rewrite Nat.add_assoc in Hm. repeat split; auto. lia.
    + intros y. unfold Tset. cbn [child_ctx slice_range c_mask]. fold Fm. rewrite bprod_app. f_equal.
      * apply bprod_ext. intros f Hf. rewrite nth_firstn_skipn, N1 by assumption. reflexivity.
      * apply bprod_ext. intros f Hf. rewrite N2, Nat.add_assoc. reflexivity.
    + unfold Rsetr. cbn [child_ctx slice_range c_mask c_ci]. fold Fm. rewrite bprod_app. f_equal.
      * apply bprod_ext. intros f Hf. rewrite !nth_firstn_skipn by assumption. unfold Qhr, Q1r.
        rewrite !prob_pev, !E1 by assumption. reflexivity.
      * apply bprod_ext. intros f Hf. unfold Qhr, Q1r. rewrite !prob_pev, !E2, Nat.add_assoc. reflexivity.
    + intros c f Hc Hf. rewrite <- Nat.add_assoc. apply Hch; [now right|lia].
    + intros f g Hf Hg Hn. rewrite <- !N2. apply HD; lia.
    + intros f Hf Hm. unfold Q1r. rewrite prob_pev, <- E2. rewrite <- Nat.add_assoc in *. apply HQ; [lia|exact Hm].
    + intros v (f & Hf & Hm & Hin) (g & Hg & _ & Hin'). fold Fm in Hf. rewrite <- (N1 f) in Hin by assumption. rewrite <- (N2 g) in Hin'.
      apply (HD f (Fm + g)%nat ltac:(lia) ltac:(lia) ltac:(lia) v Hin Hin').
Qed.

End Leaves.
