(** Structural facts about built modules. *)
From Coq Require Import List Arith Bool Lia Lra Sorted.
From Verif Require Import Base ScopeModel ScopeProofs CircuitModel.
Import ListNotations.
Local Open Scope R_scope.

(** Induction over modules (nested list in Cat). *)
Lemma module_ind' (P : module -> Prop) :
  (forall l, P (MLeaf l)) ->
  (forall c co rr lg, P c -> P (MSum c co rr lg)) ->
  (forall d2 sc cs, Forall P cs -> P (MCat d2 sc cs)) ->
  (forall c, P c -> P (MProduct c)) ->
  forall m, P m.
Proof.
  intros HL HS HC HP. fix IH 1. intros [l|c co rr lg|d2 sc cs|c].
  - apply HL.
  - apply HS, IH.
  - apply HC. induction cs as [|c cs IHcs]; constructor; [apply IH|exact IHcs].
  - apply HP, IH.
Qed.

Definition disjl (a b : list nat) : Prop := forall v, In v a -> ~ In v b.
Definition nthq (m : module) (f : nat) : list nat := nth f (fts m) [].

(** The invariant all built modules satisfy. *)
Record wf1 (m : module) : Prop := {
  wf_scope : valid (scope_of m);
  wf_len : length (fts m) = features (out_shape m);
  wf_union : forall v, In v (query (scope_of m)) <-> exists f, (f < features (out_shape m))%nat /\ In v (nthq m f);
  wf_disj : forall f g, (f < features (out_shape m))%nat -> (g < features (out_shape m))%nat -> f <> g -> disjl (nthq m f) (nthq m g);
  wf_sorted : forall f, (f < features (out_shape m))%nat -> StronglySorted lt (nthq m f);
  wf_fpos : (0 < features (out_shape m))%nat;
  wf_cpos : (0 < channels (out_shape m))%nat;
  wf_qpos : forall f, (f < features (out_shape m))%nat -> nthq m f <> [] }.

(** Node-local conditions the constructors enforce. *)
Fixpoint wf (m : module) : Prop :=
  match m with
  | MLeaf l => leaf_okb l = true
  | MSum c co rr _ => wf c /\ (1 <= co)%nat
  | MCat d2 sc cs =>
      cs <> [] /\
      (fix go (l : list module) : Prop := match l with [] => True | c :: r => wf c /\ go r end) cs /\
      (if d2
       then Forall (fun c => features (out_shape c) = features (out_shape (hd (MCat true sc []) cs))) cs
            /\ (forall c c', In c cs -> In c' cs -> scope_eqb (scope_of c) (scope_of c') = true)
            /\ sc = scope_of (hd (MCat true sc []) cs)
       else Forall (fun c => channels (out_shape c) = channels (out_shape (hd (MCat true sc []) cs))) cs
            /\ ForallOrdPairs disjoint_scopes (map scope_of cs)
            /\ (valid sc /\ forall v, In v (evidence sc) -> exists c, In c cs /\ In v (evidence (scope_of c)))
            /\ (forall v, In v (query sc) <-> exists c, In c cs /\ In v (query (scope_of c))))
  | MProduct c => wf c
  end.

Lemma go_Forall (P : module -> Prop) cs :
  (fix go (l : list module) : Prop := match l with [] => True | c :: r => P c /\ go r end) cs <-> Forall P cs.
Proof.
  induction cs as [|c cs IH]; [split; [constructor|trivial]|].
  rewrite IH. split; [intros [A B]; now constructor|intros H; inversion H; now split].
Qed.

Lemma wf_cat_children d2 sc cs : wf (MCat d2 sc cs) -> Forall wf cs.
Proof. cbn. intros (_ & H & _). now apply go_Forall. Qed.

Lemma aligned_cat_children d2 sc cs : aligned (MCat d2 sc cs) -> Forall aligned cs.
Proof. cbn. intros (H & _). now apply go_Forall. Qed.

Lemma leaf_okb_spec l : leaf_okb l = true <->
  valid (l_scope l) /\ query (l_scope l) <> [] /\ (0 < l_ch l)%nat /\ (0 < l_rep l)%nat.
Proof.
  unfold leaf_okb. rewrite !andb_true_iff, negb_true_iff, !Nat.ltb_lt.
  unfold scope_copy, scope_empty. split.
  - intros [[[H1 H2] H3] H4]. split.
    + destruct (scope_init_nat _ _) as [s|] eqn:E; [|discriminate].
      apply scope_init_nat_ok in E. destruct E as [_ E]. now destruct (l_scope l).
    + split; [|tauto]. destruct (query (l_scope l)); congruence.
  - intros (H1 & H2 & H3 & H4). repeat split; auto.
    + assert (scope_init_nat (query (l_scope l)) (evidence (l_scope l)) = Ok (l_scope l)) as ->; [|reflexivity].
      apply scope_init_nat_ok. split; [now destruct (l_scope l)|]. now destruct (l_scope l).
    + destruct (query (l_scope l)); congruence.
Qed.

(** pjoin is Scope.join_all on evidence-free valid scopes. *)
Lemma join_nil_ev a b : NoDup a -> NoDup b ->
  join (mkScope a []) (mkScope b []) = Ok (mkScope (sortu (a ++ b)) []).
Proof.
  intros Ha Hb. assert (valid (mkScope a [])) by (repeat split; auto; constructor).
  assert (valid (mkScope b [])) by (repeat split; auto; constructor).
  destruct (join_ok (mkScope a []) (mkScope b [])) as [E _]; auto.
Qed.

Lemma join_from_queries l : forall a, NoDup a -> Forall (@NoDup nat) l ->
  join_from (mkScope a []) (map (fun q => mkScope q []) l)
  = Ok (mkScope (match l with [] => a | _ => sortu (a ++ concat l) end) []).
Proof.
  induction l as [|b l IH]; intros a Ha Hl; [reflexivity|].
  inversion Hl as [|? ? Hb Hl']; subst. cbn [map join_from].
  rewrite join_nil_ev by assumption. cbn [bind].
  rewrite IH; [|apply ssorted_NoDup, sortu_sorted|assumption].
  destruct l as [|d l]; cbn [concat].
  - rewrite app_nil_r. reflexivity.
  - do 2 f_equal. apply sortu_ext. intros v. rewrite !in_app_iff, sortu_In, !in_app_iff. tauto.
Qed.

Lemma join_all_queries l : l <> [] -> Forall (@NoDup nat) l ->
  join_all (map (fun q => mkScope q []) l) = Ok (mkScope (pjoin l) []).
Proof.
  destruct l as [|a l]; [congruence|]. intros _ H. inversion H as [|? ? Ha Hl]; subst.
  unfold join_all. cbn [map]. rewrite join_from_queries by assumption.
  destruct l; reflexivity.
Qed.

Lemma pjoin_In v l : In v (pjoin l) <-> exists q, In q l /\ In v q.
Proof.
  destruct l as [|a [|b l]].
  - cbn. split; [tauto|intros (q & [] & _)].
  - cbn. split; [intros H; exists a; auto|intros (q & [<-|[]] & H); exact H].
  - unfold pjoin. rewrite sortu_In, in_concat. tauto.
Qed.

Lemma pjoin_sorted l : Forall (StronglySorted lt) l -> StronglySorted lt (pjoin l).
Proof.
  destruct l as [|a [|b l]]; intros H.
  - constructor.
  - now inversion H.
  - apply sortu_sorted.
Qed.

(** nth into a concatenation *)
Lemma nth_concat_split {A} (l1 l2 : list A) f d :
  nth f (l1 ++ l2) d = if Nat.ltb f (length l1) then nth f l1 d else nth (f - length l1) l2 d.
Proof.
  destruct (Nat.ltb_spec f (length l1)); [now rewrite app_nth1|now rewrite app_nth2].
Qed.

Lemma nsum_app a b : nsum (a ++ b) = (nsum a + nsum b)%nat.
Proof.
  induction a as [|x a IH]; [reflexivity|]. change (x + nsum (a ++ b) = (x + nsum a) + nsum b)%nat. rewrite IH. lia.
Qed.

Lemma length_concat_map {A} (g : module -> list A) (h : module -> nat) cs :
  Forall (fun c => length (g c) = h c) cs -> length (concat (map g cs)) = nsum (map h cs).
Proof.
  induction cs as [|c cs IH]; intros H; [reflexivity|].
  inversion H as [|? ? H1 H2]; subst. cbn [map concat]. rewrite app_length, IH by assumption.
  change (nsum (h c :: map h cs)) with (h c + nsum (map h cs))%nat. rewrite H1. reflexivity.
Qed.

Lemma ForallOrdPairs_In_sym {A} (Rl : A -> A -> Prop) l :
  (forall a b, Rl a b -> Rl b a) -> ForallOrdPairs Rl l ->
  forall i j d, (i < length l)%nat -> (j < length l)%nat -> i <> j -> Rl (nth i l d) (nth j l d).
Proof.
  intros Hs H. induction H as [|a l Ha Hl IH]; intros i j d Hi Hj Hn; cbn in *; [lia|].
  destruct i as [|i], j as [|j]; [congruence| | |].
  - rewrite Forall_forall in Ha. apply Ha, nth_In. lia.
  - apply Hs. rewrite Forall_forall in Ha. apply Ha, nth_In. lia.
  - apply IH; lia.
Qed.

(** locate a feature of a concatenation *)
Lemma cat1_locate cs f :
  (f < nsum (map (fun c => features (out_shape c)) cs))%nat ->
  exists pre c post g, cs = pre ++ c :: post /\ (g < features (out_shape c))%nat /\
    f = (nsum (map (fun c => features (out_shape c)) pre) + g)%nat.
Proof.
  revert f. induction cs as [|c cs IH]; cbn; intros f Hf; [lia|].
  destruct (Nat.ltb_spec f (features (out_shape c))) as [L|L].
  - exists [], c, cs, f. cbn. auto.
  - destruct (IH (f - features (out_shape c))%nat) as (pre & c' & post & g & E & Hg & Hf'); [lia|].
    exists (c :: pre), c', post, g. cbn. subst cs. repeat split; auto. lia.
Qed.

Lemma nth_concat_locate pre c post g :
  Forall (fun c => length (fts c) = features (out_shape c)) (pre ++ c :: post) ->
  (g < features (out_shape c))%nat ->
  nth (nsum (map (fun c => features (out_shape c)) pre) + g) (concat (map fts (pre ++ c :: post))) []
  = nthq c g.
Proof.
  intros H Hg. rewrite map_app, concat_app. cbn [map concat].
  apply Forall_app in H. destruct H as [H1 H2]. inversion H2; subst.
  assert (length (concat (map fts pre)) = nsum (map (fun c => features (out_shape c)) pre)) as L
    by now apply length_concat_map.
  rewrite app_nth2 by lia. rewrite L.
  replace (_ + g - _)%nat with g by lia. rewrite app_nth1 by lia. reflexivity.
Qed.

Lemma catpick_locate1 s pre c post g ch r :
  (g < features (out_shape c))%nat ->
  catpick false (map (fun c => (out_shape c, evalm s c)) (pre ++ c :: post))
    (nsum (map (fun c => features (out_shape c)) pre) + g) ch r = evalm s c g ch r.
Proof.
  intros Hg. induction pre as [|p pre IH]; cbn.
  - destruct (Nat.ltb_spec g (features (out_shape c))); [reflexivity|lia].
  - destruct (Nat.ltb_spec (features (out_shape p) + nsum (map (fun c => features (out_shape c)) pre) + g) (features (out_shape p))); [lia|].
    replace (_ + _ + g - _)%nat with (nsum (map (fun c => features (out_shape c)) pre) + g)%nat by lia.
    exact IH.
Qed.

Lemma cat2_locate cs c :
  (c < nsum (map (fun c => channels (out_shape c)) cs))%nat ->
  exists pre m post k, cs = pre ++ m :: post /\ (k < channels (out_shape m))%nat /\
    c = (nsum (map (fun c => channels (out_shape c)) pre) + k)%nat.
Proof.
  revert c. induction cs as [|m cs IH]; cbn; intros c Hc; [lia|].
  destruct (Nat.ltb_spec c (channels (out_shape m))) as [L|L].
  - exists [], m, cs, c. cbn. auto.
  - destruct (IH (c - channels (out_shape m))%nat) as (pre & c' & post & g & E & Hg & Hf'); [lia|].
    exists (m :: pre), c', post, g. cbn. subst cs. repeat split; auto. lia.
Qed.

Lemma catpick_locate2 s pre m post k f r :
  (k < channels (out_shape m))%nat ->
  catpick true (map (fun c => (out_shape c, evalm s c)) (pre ++ m :: post))
    f (nsum (map (fun c => channels (out_shape c)) pre) + k) r = evalm s m f k r.
Proof.
  intros Hg. induction pre as [|p pre IH]; cbn.
  - destruct (Nat.ltb_spec k (channels (out_shape m))); [reflexivity|lia].
  - destruct (Nat.ltb_spec (channels (out_shape p) + nsum (map (fun c => channels (out_shape c)) pre) + k) (channels (out_shape p))); [lia|].
    replace (_ + _ + k - _)%nat with (nsum (map (fun c => channels (out_shape c)) pre) + k)%nat by lia.
    exact IH.
Qed.

Lemma out_shape_cat1 sc cs :
  features (out_shape (MCat false sc cs)) = nsum (map (fun c => features (out_shape c)) cs).
Proof. cbn. now rewrite map_map. Qed.

Lemma out_shape_cat2 sc cs :
  channels (out_shape (MCat true sc cs)) = nsum (map (fun c => channels (out_shape c)) cs).
Proof. cbn. now rewrite map_map. Qed.

Lemma disjoint_scopes_sym s t : disjoint_scopes s t -> disjoint_scopes t s.
Proof. unfold disjoint_scopes. firstorder. Qed.

Lemma app_mid_eq {A} (pre pre' post post' : list A) c c' :
  pre ++ c :: post = pre' ++ c' :: post' -> length pre = length pre' -> pre = pre' /\ c = c' /\ post = post'.
Proof.
  revert pre'. induction pre as [|x pre IH]; intros [|y pre'] H L; cbn in *; try lia.
  - injection H as -> ->. auto.
  - injection H as -> H. destruct (IH pre' H) as (-> & -> & ->); [lia|]. auto.
Qed.

(** every well-formed module satisfies the invariant *)
Lemma wf_wf1 m : wf m -> wf1 m.
Proof.
  induction m as [l|c co rr lg IH|d2 sc cs IH|c IH] using module_ind'; intros H.
  - cbn in H. apply leaf_okb_spec in H. destruct H as (V & Hq & Hc & Hr).
    assert (forall f, (f < length (query (l_scope l)))%nat -> nthq (MLeaf l) f = [nth f (query (l_scope l)) 0%nat]) as N.
    { intros f Hf. unfold nthq. cbn [fts].
      rewrite nth_indep with (d' := (fun v => [v]) 0%nat) by now rewrite map_length.
      now rewrite map_nth with (f := fun v => [v]). }
    split; cbn [scope_of out_shape features channels].
    + assumption.
    + cbn. apply map_length.
    + intros v. split.
      * intros Hv. apply In_nth with (d := 0%nat) in Hv. destruct Hv as (f & Hf & E).
        exists f. split; [assumption|]. rewrite N by assumption. left; assumption.
      * intros (f & Hf & Hv). rewrite N in Hv by assumption. destruct Hv as [<-|[]]. now apply nth_In.
    + intros f g Hf Hg Hn v. rewrite !N by assumption. intros [<-|[]] [E|[]].
      destruct V as (ND & _). apply Hn. symmetry in E. eapply (proj1 (NoDup_nth _ 0%nat) ND); eauto.
    + intros f Hf. rewrite N by assumption. constructor; constructor.
    + destruct (query (l_scope l)); [congruence|cbn; lia].
    + assumption.
    + intros f Hf. rewrite N by assumption. congruence.
  - cbn in H. destruct H as [H Hco]. specialize (IH H). destruct IH. split; cbn; auto.
  - pose proof (wf_cat_children _ _ _ H) as Hcs.
    assert (Forall wf1 cs) as W.
    { rewrite Forall_forall in *. intros c Hc. apply IH; auto. }
    cbn in H. destruct H as (Hne & _ & H).
    destruct cs as [|c0 cs0] eqn:Ecs; [congruence|]. rewrite <- Ecs in *. clear Hne.
    assert (In c0 cs) as Hc0 by (subst; now left).
    assert (W0 : wf1 c0) by (rewrite Forall_forall in W; auto).
    destruct d2.
    + destruct H as (HF & Heq & Hsc).
      assert (hd (MCat true sc []) cs = c0) as Hhd by (subst; reflexivity). rewrite Hhd in *.
      assert (out_shape (MCat true sc cs) = mkShape (features (out_shape c0)) (nsum (map channels (map out_shape cs))) (repetitions (out_shape c0))) as Eo
        by (subst cs; reflexivity).
      assert (fts (MCat true sc cs) = fts c0) as Ef by (subst cs; reflexivity).
      assert (forall f, nthq (MCat true sc cs) f = nthq c0 f) as En by (intros; unfold nthq; now rewrite Ef).
      pose proof (wf_cpos c0 W0) as Cp0.
      assert (0 < nsum (map channels (map out_shape cs)))%nat as Cp by (rewrite Ecs; cbn [map nsum]; lia).
      subst sc. clear - Ecs W0 Cp. subst cs. destruct W0. split;
        [exact wf_scope0|exact wf_len0|exact wf_union0|exact wf_disj0|exact wf_sorted0|exact wf_fpos0|exact Cp|exact wf_qpos0].
    + destruct H as (HC & HD & Hv & HU).
      assert (Forall (fun c => length (fts c) = features (out_shape c)) cs) as HL.
      { eapply Forall_impl; [|exact W]. intros a Ha; apply Ha. }
      assert (forall f, (f < features (out_shape (MCat false sc cs)))%nat ->
        exists pre c post g, cs = pre ++ c :: post /\ (g < features (out_shape c))%nat /\
          f = (nsum (map (fun c => features (out_shape c)) pre) + g)%nat /\
          nthq (MCat false sc cs) f = nthq c g) as Loc.
      { intros f Hf. rewrite out_shape_cat1 in Hf. apply cat1_locate in Hf.
        destruct Hf as (pre & c & post & g & E & Hg & Ef). exists pre, c, post, g.
        repeat split; auto. unfold nthq at 1. cbn [fts]. rewrite E, Ef.
        apply nth_concat_locate; [now rewrite <- E|assumption]. }
      split; cbn [scope_of].
      * apply Hv.
      * cbn [fts]. rewrite out_shape_cat1. now apply length_concat_map.
      * intros v. rewrite HU. split.
        -- intros (c & Hc & Hq). apply in_split in Hc. destruct Hc as (pre & post & E).
           assert (wf1 c) as Wc by (rewrite Forall_forall in W; apply W; rewrite E; apply in_elt).
           apply (wf_union c Wc) in Hq. destruct Hq as (g & Hg & Hin).
           exists (nsum (map (fun c => features (out_shape c)) pre) + g)%nat.
           rewrite out_shape_cat1. split.
           ++ rewrite E, map_app, nsum_app. cbn. lia.
           ++ unfold nthq. cbn [fts]. rewrite E, nth_concat_locate; auto. now rewrite <- E.
        -- intros (f & Hf & Hin). destruct (Loc f Hf) as (pre & c & post & g & E & Hg & Ef & En).
           exists c. split; [rewrite E; apply in_elt|].
           assert (wf1 c) as Wc by (rewrite Forall_forall in W; apply W; rewrite E; apply in_elt).
           apply (wf_union c Wc). exists g. split; [assumption|]. now rewrite <- En.
      * intros f g Hf Hg Hn.
        destruct (Loc f Hf) as (pre & c & post & f' & E & Hf' & Ef & En).
        destruct (Loc g Hg) as (pre2 & c2 & post2 & g' & E2 & Hg' & Eg & En2).
        rewrite En, En2.
        assert (wf1 c) as Wc by (rewrite Forall_forall in W; apply W; rewrite E; apply in_elt).
        assert (wf1 c2) as Wc2 by (rewrite Forall_forall in W; apply W; rewrite E2; apply in_elt).
        destruct (Nat.eq_dec (length pre) (length pre2)) as [EL|NL].
        -- rewrite E in E2. destruct (app_mid_eq _ _ _ _ _ _ E2 EL) as (<- & <- & <-).
           apply (wf_disj c Wc); auto. intros ->. congruence.
        -- intros v H1 H2.
           assert (In v (query (scope_of c))) as Q1 by (apply (wf_union c Wc); eauto).
           assert (In v (query (scope_of c2))) as Q2 by (apply (wf_union c2 Wc2); eauto).
           assert (length pre < length cs)%nat by (rewrite E, app_length; cbn; lia).
           assert (length pre2 < length cs)%nat by (rewrite E2, app_length; cbn; lia).
           pose proof (ForallOrdPairs_In_sym disjoint_scopes (map scope_of cs) disjoint_scopes_sym HD
                        (length pre) (length pre2) (scope_of c)) as D.
           rewrite map_length in D. specialize (D ltac:(assumption) ltac:(assumption) NL).
           rewrite !map_nth in D.
           rewrite E in D at 1. rewrite nth_middle in D.
           assert (nth (length pre2) cs c = c2) as En3 by (rewrite E2; apply nth_middle).
           rewrite En3 in D. exact (D v Q1 Q2).
      * intros f Hf. destruct (Loc f Hf) as (pre & c & post & g & E & Hg & Ef & En). rewrite En.
        apply wf_sorted; [|assumption]. rewrite Forall_forall in W; apply W; rewrite E; apply in_elt.
      * rewrite out_shape_cat1. subst cs. cbn [map nsum]. pose proof (wf_fpos c0 W0). lia.
      * subst cs. cbn. apply W0.
      * intros f Hf. destruct (Loc f Hf) as (pre & c & post & g & E & Hg & Ef & En). rewrite En.
        apply wf_qpos; [|assumption]. rewrite Forall_forall in W; apply W; rewrite E; apply in_elt.
  - cbn in H. specialize (IH H). destruct IH as [V L U D S Fp Cp Qp].
    assert (nthq (MProduct c) 0 = pjoin (fts c)) as N by reflexivity.
    assert (forall v, In v (pjoin (fts c)) <-> exists f, (f < features (out_shape c))%nat /\ In v (nthq c f)) as PJ.
    { intros v. rewrite pjoin_In. split.
      - intros (q & Hq & Hv). apply In_nth with (d := []) in Hq. destruct Hq as (f & Hf & <-).
        exists f. split; [lia|assumption].
      - intros (f & Hf & Hv). exists (nthq c f). split; [|assumption]. apply nth_In. lia. }
    split; cbn [scope_of out_shape features channels].
    + assumption.
    + reflexivity.
    + intros v. rewrite U. split.
      * intros Hx. exists 0%nat. split; [lia|]. rewrite N. now apply PJ.
      * intros (f & Hf & Hv). assert (f = 0%nat) as -> by lia. rewrite N in Hv. now apply PJ.
    + intros f g Hf Hg Hn. lia.
    + intros f Hf. assert (f = 0%nat) as -> by lia. rewrite N. apply pjoin_sorted.
      apply Forall_forall. intros q Hq. apply In_nth with (d := []) in Hq. destruct Hq as (i & Hi & <-).
      apply S. lia.
    + lia.
    + assumption.
    + intros f Hf. assert (f = 0%nat) as -> by lia. rewrite N. intros E.
      destruct (nthq c 0) as [|v q] eqn:E0; [now apply (Qp 0%nat)|].
      assert (In v (pjoin (fts c))) as Hv.
      { apply PJ. exists 0%nat. split; [assumption|]. rewrite E0. now left. }
      rewrite E in Hv. destruct Hv.
Qed.

(** constructors establish [wf] *)
Lemma mk_cat_ok d2 cs m : Forall wf cs -> mk_cat d2 cs = Ok m -> exists sc, m = MCat d2 sc cs /\ wf m.
Proof.
  intros Hw H. destruct cs as [|c0 cs0] eqn:E; [discriminate|]. rewrite <- E in *.
  assert (Hhd : forall sc, hd (MCat true sc []) cs = c0) by (subst; reflexivity).
  assert (Hne : cs <> []) by (subst; discriminate).
  assert (Forall valid (map scope_of cs)) as HV.
  { apply Forall_forall. intros s Hs. apply in_map_iff in Hs. destruct Hs as (c & <- & Hc).
    rewrite Forall_forall in Hw. apply wf_scope, wf_wf1, Hw, Hc. }
  unfold mk_cat in H. rewrite E in H. rewrite <- E in H.
  destruct d2.
  - destruct (forallb _ cs) eqn:F; [|discriminate].
    destruct (all_equal _) eqn:A; [|discriminate]. injection H as <-.
    exists (scope_of c0). split; [reflexivity|]. cbn. rewrite Hhd.
    split; [assumption|]. split; [now apply go_Forall|]. split; [|split; [|reflexivity]].
    + apply Forall_forall. intros c Hc. rewrite forallb_forall in F. now apply Nat.eqb_eq, F.
    + intros c c' Hc Hc'. rewrite all_equal_spec in A. apply A; now apply in_map.
  - destruct (forallb _ cs) eqn:F; [|discriminate].
    destruct (all_pairwise_disjoint_spec _ HV) as (b & Eb & Hb). rewrite Eb in H. cbn in H.
    destruct b; [|discriminate].
    destruct (join_all_ok (map scope_of cs)) as (sc & Es & Vs & Q & Ev); [|assumption|].
    { subst; discriminate. }
    rewrite Es in H. cbn in H. injection H as <-.
    exists sc. split; [reflexivity|]. cbn. rewrite Hhd.
    split; [assumption|]. split; [now apply go_Forall|]. split; [|split; [now apply Hb|split; [split; [assumption|]|]]].
    + apply Forall_forall. intros c Hc. rewrite forallb_forall in F. now apply Nat.eqb_eq, F.
    + intros v Hv. apply Ev in Hv. destruct Hv as [(t & Ht & Hv) _].
      apply in_map_iff in Ht. destruct Ht as (c & <- & Hc). eauto.
    + intros v. rewrite Q. split.
      * intros (t & Ht & Hv). apply in_map_iff in Ht. destruct Ht as (c & <- & Hc). eauto.
      * intros (c & Hc & Hv). exists (scope_of c). split; [now apply in_map|assumption].
Qed.

Lemma set_weights_ok c co rr w m : set_weights c co rr w = Ok m ->
  m = MSum c co rr (fun f i o r => ln (wv w f i o r)) /\
  wF w = features (out_shape c) /\ wI w = channels (out_shape c) /\ wO w = co /\ wR w = rr /\
  (forall f i o r, (f < wF w)%nat -> (i < wI w)%nat -> (o < wO w)%nat -> (r < wR w)%nat -> 0 < wv w f i o r) /\
  (forall f o r, (f < wF w)%nat -> (o < wO w)%nat -> (r < wR w)%nat ->
     Rabs (bsum (wI w) (fun i => wv w f i o r) - 1) <= / 10 ^ 8 + / 10 ^ 5).
Proof.
  unfold set_weights. intros H.
  destruct (weights_shape_ok _ _ _ _ _) eqn:S; cbn [negb] in H; [|discriminate].
  destruct (weights_pos w) eqn:P; cbn [negb] in H; [|discriminate].
  destruct (weights_sum1 w) eqn:Q; cbn [negb] in H; [|discriminate].
  injection H as <-. unfold weights_shape_ok in S.
  rewrite !andb_true_iff, !Nat.eqb_eq in S. destruct S as [[[S1 S2] S3] S4].
  repeat split; auto.
  - intros f i o r Hf Hi Ho Hr. unfold weights_pos, allb in P.
    rewrite forallb_forall in P. specialize (P f ltac:(apply in_seq; lia)).
    rewrite forallb_forall in P. specialize (P i ltac:(apply in_seq; lia)).
    rewrite forallb_forall in P. specialize (P o ltac:(apply in_seq; lia)).
    rewrite forallb_forall in P. specialize (P r ltac:(apply in_seq; lia)).
    unfold rlt in P. destruct (Rlt_dec 0 (wv w f i o r)); [assumption|discriminate].
  - intros f o r Hf Ho Hr. unfold weights_sum1, allb in Q.
    rewrite forallb_forall in Q. specialize (Q f ltac:(apply in_seq; lia)).
    rewrite forallb_forall in Q. specialize (Q o ltac:(apply in_seq; lia)).
    rewrite forallb_forall in Q. specialize (Q r ltac:(apply in_seq; lia)).
    unfold close1, rle in Q. destruct (Rle_dec _ _); [assumption|discriminate].
Qed.

Lemma mk_sum_w_ok c co nr wa m : mk_sum_w c co nr wa = Ok m ->
  (1 <= wO (norm_warg wa))%nat /\ set_weights c (wO (norm_warg wa)) (wR (norm_warg wa)) (norm_warg wa) = Ok m.
Proof.
  unfold mk_sum_w. destruct (Nat.eqb co 1); cbn [negb]; [|discriminate].
  destruct (negb (Nat.eqb nr 1) && _); [discriminate|].
  destruct (Nat.ltb_spec (wO (norm_warg wa)) 1); [discriminate|]. auto.
Qed.

Lemma mk_sum_rand_ok c co nr rnd m : mk_sum_rand c co nr rnd = Ok m ->
  (1 <= co)%nat /\ exists lg, m = MSum c co nr lg.
Proof.
  unfold mk_sum_rand. destruct (Nat.ltb_spec co 1); [discriminate|].
  intros E. apply set_weights_ok in E. destruct E as (-> & _). eauto.
Qed.

Lemma built_wf : forall m, built m -> wf m.
Proof.
  fix IH 2. intros m [l H|d2 cs m' Hcs H|cs m' Hcs H|c co nr w m' Hc H|c co nr rnd m' Hc Hnr H|c co rr lg lg' H].
  - exact H.
  - assert (Forall wf cs) as W. { clear H. induction Hcs; constructor; auto. }
    destruct (mk_cat_ok _ _ _ W H) as (sc & _ & Hw). exact Hw.
  - assert (Forall wf cs) as W. { clear H. induction Hcs; constructor; auto. }
    unfold mk_product in H. destruct cs as [|c [|c' cs]].
    + discriminate.
    + injection H as <-. now inversion W.
    + destruct (mk_cat false _) as [mm|] eqn:E; [|discriminate]. cbn in H. injection H as <-.
      destruct (mk_cat_ok _ _ _ W E) as (sc & _ & Hw). exact Hw.
  - apply mk_sum_w_ok in H. destruct H as [H1 H2]. apply set_weights_ok in H2. destruct H2 as (-> & _).
    cbn. split; [now apply IH|assumption].
  - apply mk_sum_rand_ok in H. destruct H as (H1 & lg & ->). cbn. split; [now apply IH|assumption].
  - apply IH in H. exact H.
Qed.
