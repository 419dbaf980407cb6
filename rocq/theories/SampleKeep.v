(** Sampling writes only missing cells of the scope, and writes all of them. *)
From Coq Require Import List Arith Bool Lia Lra.
From Verif Require Import Base ScopeModel ScopeProofs CircuitModel CircuitSpec CircuitBasics CircuitEval Integral CircuitMarg CircuitProps SampleModel SampleSpec SampleExp SampleProofs SampleTop SampleApi.
Import ListNotations.
Local Open Scope R_scope.

Definition cat_run (mpe : bool) (W : nat) (ev : option row) (d2 : bool) (t : ctx) := fix go (l : list module) (off : nat) (x : row) : prog row :=
  match l with
  | [] => Ret x
  | c :: rest =>
      if child_ok d2 off (out_shape c) t
      then pbind (sample_m mpe W ev c (child_ctx d2 off (out_shape c) t) x) (fun y => go rest (next_off d2 off (out_shape c)) y)
      else Raise
  end.

Lemma sample_m_cat mpe W ev d2 sc cs t x : sample_m mpe W ev (MCat d2 sc cs) t x =
  let sh := out_shape (MCat d2 sc cs) in
  if validate [1%nat; features sh] (channels sh) (repetitions sh) t then
    match broadcast (features sh) t with
    | Err => Raise
    | Ok t1 => if cat_ok d2 cs t1 then cat_run mpe W ev d2 t1 cs 0 x else Raise end
  else Raise.
Proof. reflexivity. Qed.

Lemma no_outcome_raise {A} (b : A) : ~ outcome Raise b.
Proof. intros H. inversion H. Qed.

Lemma outcome_ret {A} (a b : A) : outcome (Ret a) b -> b = a.
Proof. intros H. now inversion H. Qed.

(** [y] extends [x] by writing missing cells in [C] *)
Definition ext (C : nat -> Prop) (x y : row) : Prop :=
  (forall v, x v <> None -> y v = x v) /\ (forall v, ~ C v -> y v = x v).

Lemma ext_refl C x : ext C x x. Proof. split; auto. Qed.
Lemma ext_trans (C1 C2 C : nat -> Prop) x y z : (forall v, C1 v -> C v) -> (forall v, C2 v -> C v) ->
  ext C1 x y -> ext C2 y z -> ext C x z.
Proof.
  intros H1 H2 [A1 B1] [A2 B2]. split; intros v Hv.
  - rewrite A2; [now apply A1|]. now rewrite A1.
  - rewrite B2, B1; auto.
Qed.
Lemma ext_weak (C1 C : nat -> Prop) x y : (forall v, C1 v -> C v) -> ext C1 x y -> ext C x y.
Proof. intros H [A B]. split; auto. Qed.
Lemma ext_filled C x y v : ext C x y -> x v <> None -> y v <> None.
Proof. intros [A _] H. now rewrite A. Qed.

Lemma fill_ext mpe l r : forall cols cm f x y, outcome (fill_cells mpe l r f cols cm x) y -> ext (fun v => In v cols) x y.
Proof.
  induction cols as [|v cols IH]; intros cm f x y H; cbn in H.
  - apply outcome_ret in H as ->. apply ext_refl.
  - destruct cm as [|[c b] cm]; [apply outcome_ret in H as ->; apply ext_refl|].
    assert (forall y, outcome (fill_cells mpe l r (S f) cols cm x) y -> ext (fun w => In w (v :: cols)) x y) as K.
    { intros z Hz. apply IH in Hz. eapply ext_weak; [|exact Hz]. intros; now right. }
    destruct (x v) eqn:Ex; [now apply K|]. destruct b; [|now apply K].
    apply outcome_bind in H. destruct H as (a & _ & H). apply IH in H.
    eapply ext_trans; [| |split|exact H]; cbn.
    + intros u Hu. exact Hu.
    + intros u Hu. now right.
    + intros u Hu. apply upd_other. congruence.
    + intros u Hu. apply upd_other. intros ->. apply Hu. now left.
Qed.

Lemma fill_filled mpe l r : forall cols cm f x y, NoDup cols -> length cm = length cols -> outcome (fill_cells mpe l r f cols cm x) y ->
  forall j, (j < length cols)%nat -> snd (nth j cm (0%nat, false)) = true -> y (nth j cols 0%nat) <> None.
Proof.
  induction cols as [|v cols IH]; intros cm f x y ND L H j Hj Hb; [cbn in Hj; lia|].
  destruct cm as [|[c b] cm]; [discriminate|]. injection L as L. inversion ND as [|? ? Hn ND']; subst. cbn in H.
  destruct j as [|j].
  - cbn in Hb |- *. subst b. destruct (x v) eqn:Ex.
    + apply fill_ext in H. apply (ext_filled _ _ _ v H). congruence.
    + apply outcome_bind in H. destruct H as (a & _ & H). apply fill_ext in H. apply (ext_filled _ _ _ v H). rewrite upd_same. discriminate.
  - cbn in Hj, Hb |- *. destruct (x v) eqn:Ex; [eapply IH; eauto; lia|]. destruct b; [|eapply IH; eauto; lia].
    apply outcome_bind in H. destruct H as (a & _ & H). eapply IH; eauto. lia.
Qed.

Lemma scope_cols_fine W l : (forall v, In v (query (l_scope l)) -> (v < W)%nat) -> scope_cols W l = Ok (query (l_scope l)).
Proof.
  intros H. unfold scope_cols. replace (forallb _ _) with true; [reflexivity|]. symmetry. apply forallb_forall.
  intros v Hv. now apply Nat.ltb_lt, H.
Qed.

Lemma choose_length (pick : nat -> nat -> prog nat) : forall ci f ns, outcome (choose_channels pick f ci) ns -> length ns = length ci.
Proof.
  induction ci as [|c ci IH]; intros f ns H; cbn in H; [apply outcome_ret in H as ->; reflexivity|].
  apply outcome_bind in H. destruct H as (n & _ & H). apply outcome_bind in H. destruct H as (ns' & H' & H).
  apply outcome_ret in H as ->. cbn. f_equal. eapply IH. exact H'.
Qed.

(** (1) evidence and cells outside the scope are kept *)
Lemma sample_ext mpe W ev m : wf m -> forall t x y, outcome (sample_m mpe W ev m t x) y ->
  (forall v, x v <> None -> y v = x v) /\ (cols_fine W m -> forall v, ~ In v (query (scope_of m)) -> y v = x v).
Proof.
  induction m as [l|ch co rr lg IH|d2 sc cs IH|ch IH] using module_ind'; intros Wf t x y H.
  - cbn [sample_m] in H. unfold sample_leaf in H.
    destruct (validate _ _ _ _); [|now apply no_outcome_raise in H].
    destruct (scope_cols W l) as [cols|] eqn:EC; [|now apply no_outcome_raise in H].
    destruct (slice_leaf W cols t) as [cm|]; [|now apply no_outcome_raise in H].
    destruct (row_active cols cm x); [|apply outcome_ret in H as ->; auto].
    destruct (forallb _ _); [|now apply no_outcome_raise in H].
    apply fill_ext in H. destruct H as [A B]. split; [exact A|].
    intros HC v Hv. apply B. rewrite (scope_cols_fine W l HC) in EC. injection EC as <-. exact Hv.
  - cbn [sample_m] in H. destruct (validate _ _ _ _); [|now apply no_outcome_raise in H].
    destruct (broadcast _ _); [|now apply no_outcome_raise in H].
    apply outcome_bind in H. destruct H as (ns & _ & H). cbn in Wf. apply (IH (proj1 Wf) _ _ _ H).
  - rewrite sample_m_cat in H. cbv zeta in H.
    destruct (validate _ _ _ _); [|now apply no_outcome_raise in H].
    destruct (broadcast _ _) as [t1|]; [|now apply no_outcome_raise in H].
    destruct (cat_ok _ _ _); [|now apply no_outcome_raise in H].
    pose proof (wf_cat_children _ _ _ Wf) as Wc.
    assert (forall l off x y, (forall c, In c l -> In c cs) -> outcome (cat_run mpe W ev d2 t1 l off x) y ->
      (forall v, x v <> None -> y v = x v) /\ (cols_fine W (MCat d2 sc cs) -> forall v, ~ In v (query sc) -> y v = x v)) as G;
      [|apply (G cs 0%nat x y (fun c Hc => Hc) H)].
    clear H x y. induction l as [|c l IHl]; intros off x y Hl H; cbn in H.
    + apply outcome_ret in H as ->. auto.
    + destruct (child_ok _ _ _ _); [|now apply no_outcome_raise in H].
      apply outcome_bind in H. destruct H as (z & Hz & H).
      rewrite Forall_forall in IH, Wc. assert (In c cs) as Hc by (apply Hl; now left).
      destruct (IH c Hc (Wc c Hc) _ _ _ Hz) as [A1 B1].
      destruct (IHl _ _ _ (fun c' Hc' => Hl c' (or_intror Hc')) H) as [A2 B2]. split.
      * intros v Hv. rewrite A2; [now apply A1|]. now rewrite A1.
      * intros HC v Hv. rewrite B2 by assumption. apply B1.
        -- intros u Hu. apply HC. eapply cat_child_scope; eauto.
        -- intros Hu. apply Hv. eapply cat_child_scope; eauto.
  - cbn [sample_m] in H. destruct (validate _ _ _ _); [|now apply no_outcome_raise in H].
    destruct (broadcast _ _); [|now apply no_outcome_raise in H]. apply (IH Wf _ _ _ H).
Qed.

(** (2) every active cell is filled *)
Lemma sample_fill mpe W ev m : wf m -> aligned m -> cols_fine W m -> forall t x y,
  length (c_ci t) = features (out_shape m) -> length (c_mask t) = features (out_shape m) ->
  outcome (sample_m mpe W ev m t x) y ->
  forall f v, (f < features (out_shape m))%nat -> nth f (c_mask t) false = true -> In v (nthq m f) -> y v <> None.
Proof.
  induction m as [l|ch co rr lg IH|d2 sc cs IH|ch IH] using module_ind'; intros Wf A HC t x y Lc Lm H f v Hf Hm Hin.
  - cbn [sample_m] in H. unfold sample_leaf in H. cbn in Lc, Lm, Hf.
    destruct (validate _ _ _ _); [|now apply no_outcome_raise in H].
    rewrite (scope_cols_fine W l HC) in H. unfold slice_leaf in H. rewrite Lm, Nat.eqb_refl in H.
    set (cm := combine (c_ci t) (c_mask t)) in *.
    assert (length cm = length (query (l_scope l))) as Lcm by (unfold cm; rewrite combine_length; lia).
    assert (snd (nth f cm (0%nat, false)) = true) as Hcm by (unfold cm; rewrite combine_nth by congruence; exact Hm).
    rewrite nthq_leaf in Hin by exact Hf. destruct Hin as [<-|[]].
    destruct (row_active _ _ _) eqn:ER.
    + destruct (forallb _ _); [|now apply no_outcome_raise in H].
      eapply fill_filled; eauto. cbn in Wf. apply (proj1 (leaf_okb_spec l)) in Wf. apply Wf.
    + apply outcome_ret in H as ->. intros E. unfold row_active in ER.
      assert (existsb (fun p : nat * (nat * bool) => (isnone (x (fst p)) && snd (snd p))%bool) (combine (query (l_scope l)) cm) = true); [|congruence].
      apply existsb_exists. exists (nth f (combine (query (l_scope l)) cm) (0%nat, (0%nat, false))). split.
      * apply nth_In. rewrite combine_length. lia.
      * rewrite combine_nth by congruence. cbn [fst snd]. rewrite E, Hcm. reflexivity.
  - cbn [sample_m] in H. cbn [out_shape features] in *. destruct (validate _ _ _ _); [|now apply no_outcome_raise in H].
    rewrite bcast_full in H by exact Lc. apply outcome_bind in H. destruct H as (ns & Hns & H).
    apply choose_length in Hns. cbn in Wf.
    eapply (IH (proj1 Wf) A HC); [| |exact H|exact Hf|exact Hm|exact Hin]; cbn; congruence.
  - rewrite sample_m_cat in H. cbv zeta in H.
    destruct (validate _ _ _ _) eqn:EV; [|now apply no_outcome_raise in H].
    rewrite bcast_full in H by exact Lc.
    destruct (cat_ok _ _ _) eqn:EO; [|now apply no_outcome_raise in H].
    pose proof (wf_cat_children _ _ _ Wf) as Wc. pose proof (aligned_cat_children _ _ _ A) as Ac.
    rewrite Forall_forall in IH, Wc, Ac.
    assert (forall c, In c cs -> cols_fine W c) as Hcf.
    { intros c Hc u Hu. apply HC. eapply cat_child_scope; eauto. }
    (* run decomposition: the child responsible for position f *)
    assert (forall pre ch post off x y, cs = pre ++ ch :: post \/ True -> (forall c, In c (pre ++ ch :: post) -> In c cs) ->
      outcome (cat_run mpe W ev d2 t (pre ++ ch :: post) off x) y ->
      exists x1 y1, outcome (sample_m mpe W ev ch (child_ctx d2 (fold_left (fun o c => next_off d2 o (out_shape c)) pre off) (out_shape ch) t) x1) y1
        /\ child_ok d2 (fold_left (fun o c => next_off d2 o (out_shape c)) pre off) (out_shape ch) t = true
        /\ (forall v, y1 v <> None -> y v <> None)) as G.
    { clear H x y. induction pre as [|p pre IHp]; intros ch post off x y _ Hl H; cbn in H.
      - destruct (child_ok d2 off (out_shape ch) t) eqn:EK; [|now apply no_outcome_raise in H].
        apply outcome_bind in H. destruct H as (z & Hz & H). exists x, z. cbn [fold_left]. repeat split; auto.
        assert (forall l off x y, (forall c, In c l -> In c cs) -> outcome (cat_run mpe W ev d2 t l off x) y ->
          forall v, x v <> None -> y v <> None) as K.
        { clear -Wc. induction l as [|c l IHl]; intros off x y Hl H w Hw; cbn in H.
          - now apply outcome_ret in H as ->.
          - destruct (child_ok _ _ _ _); [|now apply no_outcome_raise in H].
            apply outcome_bind in H. destruct H as (z & Hz & H).
            apply (IHl _ _ _ (fun c' Hc' => Hl c' (or_intror Hc')) H).
            destruct (sample_ext mpe W ev c (Wc c (Hl c (or_introl eq_refl))) _ _ _ Hz) as [A1 _]. now rewrite A1. }
        intros w Hw. eapply K; [|exact H|exact Hw]. intros c Hc. apply Hl. now right.
      - destruct (child_ok d2 off (out_shape p) t); [|now apply no_outcome_raise in H].
        apply outcome_bind in H. destruct H as (z & Hz & H).
        apply (IHp ch post _ _ _ (or_intror I)) in H; [|intros c Hc; apply Hl; now right]. exact H. }
    assert (forall pre off, fold_left (fun o c => next_off d2 o (out_shape c)) pre off =
       (off + nsum (map (fun c => if d2 then channels (out_shape c) else features (out_shape c)) pre))%nat) as FO.
    { clear. induction pre as [|p pre IHp]; intros off; cbn [fold_left map nsum]; [lia|]. rewrite IHp. unfold next_off. lia. }
    destruct d2.
    + unfold cat_ok, active_below in EO. rewrite forallb_forall in EO.
      assert (nth f (c_ci t) 0 < nsum (map (fun c => channels (out_shape c)) cs))%nat as Hc.
      { specialize (EO (nth f (c_ci t) 0%nat, nth f (c_mask t) false)). rewrite Hm in EO. cbn in EO. apply Nat.ltb_lt, EO.
        rewrite <- Hm, <- combine_nth by congruence. apply nth_In. rewrite combine_length. lia. }
      apply cat2_locate in Hc. destruct Hc as (pre & ch & post & k & E & Hk & Ek).
      destruct (G pre ch post 0%nat x y (or_intror I)) as (x1 & y1 & Ho & _ & Hy); [intros c; now rewrite E|now rewrite <- E|].
      assert (In ch cs) as Hch by (rewrite E; apply in_elt).
      apply Hy. rewrite FO in Ho. cbn [plus] in Ho.
      assert (fts ch = hd [] (map fts cs)) as Ef.
      { cbn in A. destruct A as [_ A]. specialize (A eq_refl). rewrite Forall_forall in A. now apply A. }
      assert (features (out_shape ch) = features (out_shape (MCat true sc cs))) as EF.
      { rewrite <- (wf_len ch (wf_wf1 ch (Wc ch Hch))), <- (wf_len _ (wf_wf1 _ Wf)). cbn [fts]. now rewrite Ef. }
      eapply (IH ch Hch (Wc ch Hch) (Ac ch Hch) (Hcf ch Hch)); [| |exact Ho| | |].
      * cbn. rewrite map_length. congruence.
      * cbn. rewrite map_length, combine_length. lia.
      * rewrite EF. exact Hf.
      * cbn [child_ctx route c_mask].
        rewrite (nth_map_lt' _ _ _ _ (0%nat, false)) by (rewrite combine_length; lia).
        rewrite combine_nth by congruence. cbn [fst snd]. rewrite Hm, andb_true_r, Ek. unfold in_range.
        apply andb_true_iff. split; [apply Nat.leb_le|apply Nat.ltb_lt]; lia.
      * unfold nthq in *. cbn [fts] in Hin. now rewrite Ef.
    + pose proof Hf as Hf'. rewrite out_shape_cat1 in Hf'. apply cat1_locate in Hf'.
      destruct Hf' as (pre & ch & post & g & E & Hg & Eg).
      destruct (G pre ch post 0%nat x y (or_intror I)) as (x1 & y1 & Ho & Hk & Hy); [intros c; now rewrite E|now rewrite <- E|].
      assert (In ch cs) as Hch by (rewrite E; apply in_elt).
      apply Hy. rewrite FO in Ho, Hk. cbn [plus] in Ho, Hk. cbn [child_ok] in Hk. apply Nat.leb_le in Hk.
      eapply (IH ch Hch (Wc ch Hch) (Ac ch Hch) (Hcf ch Hch)); [| |exact Ho|exact Hg| |].
      * cbn [child_ctx slice_range c_ci]. rewrite firstn_length, skipn_length. lia.
      * cbn [child_ctx slice_range c_mask]. rewrite firstn_length, skipn_length. lia.
      * cbn [child_ctx slice_range c_mask]. rewrite nth_firstn_skipn by exact Hg. now rewrite <- Eg.
      * unfold nthq in Hin. cbn [fts] in Hin. rewrite Eg, E in Hin. rewrite nth_concat_locate in Hin; [exact Hin| |exact Hg].
        rewrite <- E. apply Forall_forall. intros c Hc. apply (wf_len c (wf_wf1 c (Wc c Hc))).
  - cbn [sample_m] in H. destruct (validate _ _ _ _); [|now apply no_outcome_raise in H].
    cbn [out_shape features] in *. destruct t as [ci mask r]. cbn [c_ci c_mask] in *.
    destruct ci as [|c [|]]; try discriminate. destruct mask as [|b [|]]; try discriminate.
    assert (f = 0%nat) as -> by lia. cbn in Hm. subst b.
    pose proof (wf_fpos ch (wf_wf1 ch Wf)) as Fp.
    assert (broadcast (features (out_shape ch)) (mkCtx [c] [true] r) = Ok (mkCtx (repeat c (features (out_shape ch))) (repeat true (features (out_shape ch))) r)) as EB.
    { unfold broadcast. cbn [c_ci c_mask c_rep length]. destruct (Nat.eqb_spec 1 (features (out_shape ch))) as [<-|N]; reflexivity. }
    rewrite EB in H. apply nthq_product in Hin; [|exact Wf]. destruct Hin as (g & Hg & Hin).
    eapply (IH Wf A HC); [| |exact H|exact Hg| |exact Hin].
    + cbn. apply repeat_length.
    + cbn. apply repeat_length.
    + cbn. now rewrite nth_repeat_lt.
Qed.

(** at the API *)
Lemma c11 mpe W ev m x y : built m -> outcome (sample_m mpe W ev m init_ctx x) y ->
  (forall v, x v <> None -> y v = x v) /\
  ((forall v, vars m v -> (v < W)%nat) -> (forall v, ~ vars m v -> y v = x v) /\
     (aligned m -> forall v, vars m v -> y v <> None)).
Proof.
  intros B H. pose proof (built_wf m B) as Wf. destruct (sample_ext mpe W ev m Wf _ _ _ H) as [H1 H2].
  split; [exact H1|]. intros HC. split; [exact (H2 HC)|]. intros A v Hv.
  unfold init_ctx in H. rewrite widen in H by exact Wf.
  apply (wf_union m (wf_wf1 m Wf)) in Hv. destruct Hv as (f & Hf & Hv).
  eapply (sample_fill mpe W ev m Wf A HC); [| |exact H|exact Hf| |exact Hv]; cbn.
  - apply repeat_length.
  - apply repeat_length.
  - now rewrite nth_repeat_lt.
Qed.
