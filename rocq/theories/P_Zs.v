(** C265-C274: the SOSModel and ExpSOSModel constructors. *)
From Coq Require Import List Arith ZArith Bool Reals Lia Lra Sorted Permutation.
From Verif Require Import Base ScopeModel ScopeProofs CircuitModel CircuitSpec CircuitBasics CircuitEval CircuitProps Integral MargProofs PruneTop LearnProofs
  LeafModel LeafSpec LeafProofs LeafTop SignedModel SignedSpec SignedProofs SampleModel SocsExamples SocsProofs SocsTop TripleModel TripleSpec ExpTop P_Socs P_Exp
  ZsModel ZsSpec ZsTree ZsProofs ZsCompat ZsTop ZsComp ZsMain ZsEven ZsRes ZsUse.
Import ListNotations.
Local Open Scope R_scope.

(** C265: whatever the shuffles, the region tree covers the variables 0 .. n-1 exactly
    once: the root holds all of them, every inner node has at least two children that
    divide its variables up, and the leaves are single variables (quad trees: single
    pixels, with one variable per image channel). *)
Theorem C265_region_tree : forall rg n img sh t, (0 < n)%nat -> good_image n img -> shuffling sh -> build_tree rg n img sh = Ok t ->
  region_tree t /\ Permutation (tscope t) (seq 0 n) /\
  match rg with
  | RndBt | RndLt | Lt => Forall (fun l => length l = 1%nat) (tree_leaves t)
  | _ => exists c h w, img = Some (c, h, w) /\ Forall (fun l => exists y x, (y < h)%nat /\ (x < w)%nat /\ l = pixel c h w y x) (tree_leaves t)
  end.
Proof. exact build_tree_ok. Qed.
Print Assumptions C265_region_tree.

(** _build_tree fails exactly for an unknown graph and for quad trees without an image *)
Theorem C265_accepts : forall rg n img sh, (exists t, build_tree rg n img sh = Ok t) <-> good_graph rg img.
Proof. exact tree_exists. Qed.
Print Assumptions C265_accepts.

(** C266: SOSModel(...) succeeds exactly for positive counts, a matching image, a known
    region graph (quad trees need the image), the number of states (positive for signed
    inputs) and either num_input_units = num_sum_units or region trees without a node
    that has both a leaf and an inner node below it. *)
Theorem C266_constructor : forall a s, good_seeds s ->
  ((exists cs, sos_model a s = Ok cs) <->
   (0 < a_squares a)%nat /\ (0 < a_vars a)%nat /\ (0 < a_in a)%nat /\ (0 < a_sum a)%nat /\ good_image (a_vars a) (a_img a) /\ good_graph (a_graph a) (a_img a) /\
   good_states a /\ (a_in a = a_sum a \/ forall i t, (i < a_squares a)%nat -> tree_for a s i t -> even_tree t)).
Proof. exact sos_model_iff. Qed.
Print Assumptions C266_constructor.

(** C267: linear trees have no such node for at most two variables, random binary trees
    for a power of two, quad trees at least when both image sides are powers of two. *)
Theorem C267_even_trees : forall rg n img sh t, (0 < n)%nat -> good_image n img -> shuffling sh -> build_tree rg n img sh = Ok t ->
  match rg with
  | RndLt | Lt => even_tree t <-> (n <= 2)%nat
  | RndBt => even_tree t <-> exists k, n = (2 ^ k)%nat
  | _ => forall c i j, img = Some (c, 2 ^ i, 2 ^ j)%nat -> even_tree t
  end.
Proof. exact even_trees. Qed.
Print Assumptions C267_even_trees.

(** C268: valid arguments with num_input_units <> num_sum_units are rejected: for three
    and more variables on a linear tree, whatever the other arguments, ... *)
Theorem C268_units_refuted : forall a s, good_seeds s -> a_in a <> a_sum a ->
  match a_graph a with
  | Lt | RndLt => (3 <= a_vars a)%nat
  | RndBt => forall k, a_vars a <> (2 ^ k)%nat
  | _ => False
  end -> sos_model a s = Err.
Proof.
  intros a s GS HN HG. destruct (sos_model a s) as [cs|] eqn:E; [|reflexivity]. exfalso.
  destruct (proj1 (sos_model_iff a s GS) (ex_intro _ _ E)) as (A1 & A2 & _ & _ & A5 & A6 & _ & [A8|A8]); [contradiction|].
  destruct (proj2 (tree_exists (a_graph a) (a_vars a) (a_img a) (sh_of s (structure_seed (a_seed a) 0 (a_structured a)))) A6) as (t & ET).
  pose proof (A8 0%nat t A1 ET) as EV. destruct GS as (SH & _). pose proof (even_trees _ _ _ _ t A2 A5 (SH _) ET) as Q.
  destruct (a_graph a); try contradiction.
  - apply Q in EV. destruct EV as (k & Ek). exact (HG k Ek).
  - apply Q in EV. lia.
  - apply Q in EV. lia.
Qed.
Print Assumptions C268_units_refuted.

(** C269: the components: their number, scope and shape; the partition function can
    always be computed. *)
Theorem C269_components : forall a s cs, good_seeds s -> sos_model a s = Ok cs ->
  length cs = (a_squares a * if a_complex a then 2 else 1)%nat /\ Forall (scalar_over (a_vars a)) cs /\ exists Z, partition cs = Ok Z.
Proof.
  intros a s cs GS H. destruct (sos_model_inv a s cs GS H) as (_ & V & L & F & _). apply validate_iff in V. destruct V as (Hn & _ & _ & _ & HI).
  split; [exact L|]. split; [|eapply partition_all; eauto]. eapply Forall_impl; [|exact F]. intros c (i & _ & M).
  destruct (made_cok a _ s false i c Hn HI GS M) as [_ S Vc E]. split; [exact S|]. split; [|exact E]. intros v. rewrite Vc, in_seq. lia.
Qed.
Print Assumptions C269_components.

(** ... the model's log-likelihood is the log of the normalised sum of squares, a
    probability distribution over all complete rows, and it never raises on them *)
Theorem C269_density : forall a s cs Z, good_seeds s -> (forall z, exact_draws (a_vars a) (dr_of s z)) -> has_states a ->
  sos_model a s = Ok cs -> partition cs = Ok Z ->
  (forall x, sums_over (var_dom a) (seq 0 (a_vars a)) (fun y => squares cs y 0%nat 0%nat 0%nat) x (Z 0%nat 0%nat 0%nat)) /\
  (forall x, full_row a x -> exists t, socs_ll cs x = Ok t /\ (tiny <= Z 0%nat 0%nat 0%nat -> pr (t 0%nat 0%nat 0%nat) = squares cs x 0%nat 0%nat 0%nat / Z 0%nat 0%nat 0%nat)) /\
  (tiny <= Z 0%nat 0%nat 0%nat -> forall x, sums_over (var_dom a) (seq 0 (a_vars a)) (fun y => squares cs y 0%nat 0%nat 0%nat / Z 0%nat 0%nat 0%nat) x 1).
Proof.
  intros a s cs Z GS ED HS H EZ. destruct (sos_model_inv a s cs GS H) as (SQ & V & L & F & _). apply validate_iff in V. destruct V as (Hn & _ & _ & HL & HI).
  set (g := scfg a (states_of a)) in *. assert (HK : g_layer g <> LGaussian -> (0 < g_states g)%nat) by (intros HG; now apply has_states_pos).
  assert (FC : Forall (component 1 (var_dom a)) cs).
  { eapply Forall_impl; [|exact F]. intros c (i & _ & M). rewrite <- (proj1 (dom_eq a HL)). eapply made_component; eauto. }
  assert (NE : cs <> []) by (intros E; rewrite E in L; unfold per in L; cbn in L; destruct (a_complex a); lia).
  assert (FK : Forall (cok (seq 0 (a_vars a))) cs) by (eapply Forall_impl; [|exact F]; intros c (i & _ & M); eapply made_cok; eauto).
  assert (FP : Forall (fun m => pos_ok 1 m 0 0 0) cs).
  { eapply Forall_impl; [|exact FK]. intros c [B S _ _]. apply scalar_pos; [apply B|now apply scalar_iff]. }
  assert (FV : Forall (fun m => forall v, In v (seq 0 (a_vars a)) <-> In v (vars_of m 0)) cs).
  { eapply Forall_impl; [|exact FK]. intros c [B S Vc _] v. rewrite scalar_vars by (apply B || assumption). symmetry. apply Vc. }
  split; [|split].
  - intros x. exact (partition_integral 1 (var_dom a) cs Z 0 0 0 (seq 0 (a_vars a)) x NE FC EZ FP (seq_NoDup _ _) FV).
  - intros x FR. assert (FS : Forall (fun m => in_support m x /\ complete m x) cs).
    { eapply Forall_impl; [|exact F]. intros c (i & _ & M). eapply (made_support a g s false i c x); eauto. }
    destruct (socs_accepts cs x Z) as (t & Et); [|exact EZ|].
    + apply Forall_forall. intros c Hc. rewrite Forall_forall in F, FS. destruct (F c Hc) as (i & _ & M).
      destruct (made_ready a g s false i c Hn HI GS HK ED eq_refl M) as (B1 & B2 & B3). destruct (FS c Hc). auto.
    + exists t. split; [exact Et|]. intros HZ. destruct (C45_density 1 (var_dom a) cs Z 0 0 0 (seq 0 (a_vars a)) NE FC EZ FP (seq_NoDup _ _) FV HZ) as (_ & Q & _).
      apply Q; [|exact Et]. eapply Forall_impl; [|exact FS]. intros c [_ Q']. exact Q'.
  - intros HZ. destruct (C45_density 1 (var_dom a) cs Z 0 0 0 (seq 0 (a_vars a)) NE FC EZ FP (seq_NoDup _ _) FV HZ) as (_ & _ & Q). exact Q.
Qed.
Print Assumptions C269_density.

(** C270: with structured_decomposable=True any two components are compatible: their
    inner product can be taken and is the sum or integral of the product of the two
    functions. *)
Theorem C270_structured : forall a s cs c c', good_seeds s -> a_structured a = true -> sos_model a s = Ok cs -> In c cs -> In c' cs ->
  exists k, inner_product_matrix c c' = Ok k /\
  ((forall z, exact_draws (a_vars a) (dr_of s z)) -> has_states a ->
   forall x, sums_over (var_dom a) (seq 0 (a_vars a)) (fun y => fun_of c y 0%nat 0%nat 0%nat * fun_of c' y 0%nat 0%nat 0%nat) x (k 0 0 0 0)%nat).
Proof.
  intros a s cs c c' GS HS H Hc Hc'. destruct (sos_model_inv a s cs GS H) as (_ & V & _ & F & _). apply validate_iff in V. destruct V as (Hn & _ & _ & HL & HI).
  rewrite Forall_forall in F. destruct (F c Hc) as (i & _ & M), (F c' Hc') as (j & _ & M'). unfold inner_product_matrix.
  rewrite (made_ip a s i j c c' (or_introl HS) M M'). eexists. split; [reflexivity|]. intros ED HH x.
  set (g := scfg a (states_of a)) in *. assert (HK : g_layer g <> LGaussian -> (0 < g_states g)%nat) by (intros HG; now apply has_states_pos).
  assert (KC : forall i c, made_of a g s false i c -> component 1 (var_dom a) c /\ cok (seq 0 (a_vars a)) c).
  { intros i0 c0 M0. split; [|eapply made_cok; eauto]. rewrite <- (proj1 (dom_eq a HL)). eapply made_component; eauto. }
  destruct (KC i c M) as ([B1 S1 F1 _ _ _ _] & [_ K1 V1 _]), (KC j c' M') as ([B2 S2 F2 _ _ _ _] & [_ K2 V2 _]).
  apply (C44_inner_product 1 (var_dom a) c c' _ (seq 0 (a_vars a))); auto.
  - intros la lb Ha Hb _. destruct M as (t & z & T & C), M' as (t' & z' & T' & C').
    pose proof (comp_leaves _ _ _ _ _ C) as L. pose proof (comp_leaves _ _ _ _ _ C') as L'. rewrite Forall_forall in L, L'.
    destruct (L la Ha) as (sa & _ & Ka), (L' lb Hb) as (sb & _ & Kb).
    pose proof (ED z) as Ez. destruct (exact_sum g _ Ez) as (_ & N1). pose proof (ED z') as Ez'. destruct (exact_sum g _ Ez') as (_ & N2).
    destruct (leaf_facts g _ sa la HK Ka N1) as (_ & _ & _ & _ & Fa), (leaf_facts g _ sb lb HK Kb N2) as (_ & _ & _ & _ & Fb).
    destruct la as [la|]; [|exact I]. destruct lb as [lb|]; [|exact I]. cbn [exact_leaves]. intros f ca cb r _ _ _ _.
    destruct (Fa f ca r) as [(? & ? & ->)|(? & ? & ->)]; exact I.
  - unfold inner_product_matrix. now rewrite (made_ip a s i j c c' (or_introl HS) M M').
  - apply scalar_pos; [apply B1|now apply scalar_iff].
  - apply scalar_pos; [apply B2|now apply scalar_iff].
  - apply seq_NoDup.
  - intros v. rewrite scalar_vars by (apply B1 || assumption). symmetry. apply V1.
Qed.
Print Assumptions C270_structured.

(** C271: ExpSOSModel(...): which arguments it accepts *)
Theorem C271_constructor : forall a s, good_seeds s ->
  ((exists e, exp_sos_model a s = Ok e) <->
   (0 < a_vars a)%nat /\ (0 < a_in a)%nat /\ (0 < a_sum a)%nat /\ (0 < a_mono_in a)%nat /\ (0 < a_mono_sum a)%nat /\ good_image (a_vars a) (a_img a) /\ good_graph (a_graph a) (a_img a) /\
   good_states a /\ ((a_in a = a_sum a /\ a_mono_in a = a_mono_sum a) \/ forall t, tree_for a s 0 t -> even_tree t)).
Proof. exact exp_iff. Qed.
Print Assumptions C271_constructor.

(** ... and what it returns: one component (two if complex), everything over the
    variables 0 .. n-1, with a computable partition function; its log-likelihood is the
    log of m(x) * sum_i c_i(x)^2 / Z, a probability distribution over complete rows, and
    never raises on them *)
Theorem C271_density : forall a s e, good_seeds s -> exp_sos_model a s = Ok e ->
  length (x_comps e) = (if a_complex a then 2 else 1)%nat /\ Forall (scalar_over (a_vars a)) (x_mono e :: x_comps e) /\
  exists Z, exp_Z e = Ok Z /\
  ((forall z, exact_draws (a_vars a) (dr_of s z)) -> has_states a ->
   let m := fun y => fun_of (x_mono e) y 0%nat 0%nat 0%nat * squares (x_comps e) y 0%nat 0%nat 0%nat in
   (forall x, sums_over (var_dom a) (seq 0 (a_vars a)) m x Z) /\
   (forall x, full_row a x -> exists v, exp_ll e x = Ok v /\ (tiny <= Z -> pr v = m x / Z)) /\
   (tiny <= Z -> forall x, sums_over (var_dom a) (seq 0 (a_vars a)) (fun y => m y / Z) x 1)).
Proof.
  intros a s e GS H. destruct (exp_made a s e GS H) as (V & _ & L & MK & NE & MM & F). apply validate_iff in V. destruct V as (Hn & _ & _ & HL & HI).
  assert (SO : forall g c, made_of a g s true 0 c -> scalar_over (a_vars a) c).
  { intros g c M. destruct (made_cok a g s true 0 c Hn HI GS M) as [_ S Vc E]. split; [exact S|]. split; [|exact E]. intros v. rewrite Vc, in_seq. lia. }
  split; [exact L|]. split; [constructor; [eapply SO; exact MM|eapply Forall_impl; [|exact F]; intros c M; eapply SO; exact M]|].
  destruct (exp_Z_all a s e GS H) as (Z & EZ). exists Z. split; [exact EZ|]. intros ED HS. cbn zeta.
  set (g := scfg a (states_of a)) in *. set (gm := mcfg a (states_of a)) in *.
  assert (HK : g_layer g <> LGaussian -> (0 < g_states g)%nat) by (intros HG; now apply has_states_pos).
  assert (HKm : g_layer gm <> LGaussian -> (0 < g_states gm)%nat) by (intros HG; now apply has_states_pos).
  assert (EC : expcomp (var_dom a) e).
  { constructor.
    - rewrite <- (proj2 (dom_eq a HL)). eapply made_component; eauto.
    - eapply Forall_impl; [|exact F]. intros c M. rewrite <- (proj1 (dom_eq a HL)). eapply made_component; eauto.
    - intros m la lb lc Hm Ha Hb Hc _ _. rewrite Forall_forall in F. destruct (F m Hm) as (t & z & T & C), MM as (tm & zm & TM & CM).
      pose proof (comp_leaves _ _ _ _ _ C) as LL. pose proof (comp_leaves _ _ _ _ _ CM) as LM. rewrite Forall_forall in LL, LM.
      destruct (LL la Ha) as (sa & _ & Ka), (LL lb Hb) as (sb & _ & Kb), (LM lc Hc) as (sc & _ & Kc).
      pose proof (ED z) as Ez. destruct (exact_sum g _ Ez) as (_ & N1). pose proof (ED zm) as Ezm. destruct (exact_sum gm _ Ezm) as (_ & N2).
      destruct (leaf_facts g _ sa la HK Ka N1) as (_ & _ & _ & _ & Fa), (leaf_facts g _ sb lb HK Kb N1) as (_ & _ & _ & _ & Fb), (leaf_facts gm _ sc lc HKm Kc N2) as (_ & _ & _ & _ & Fc).
      destruct la as [la|]; [|exact I]. destruct lb as [lb|]; [|exact I]. destruct lc as [lc|]; [|exact I]. cbn [exact_leaves3]. intros f ca cb cc r _ _ _ _ _.
      pose proof (leaf_scale g _ sa (SFam la) Ez Ka f ca r) as Ta. pose proof (leaf_scale g _ sb (SFam lb) Ez Kb f cb r) as Tb. pose proof (leaf_scale gm _ sc (SFam lc) Ezm Kc f cc r) as Tc.
      destruct (Fa f ca r) as [(xa & ya & Ea)|(? & ? & ->)]; [|exact I]. destruct (Fb f cb r) as [(xb & yb & Eb)|(? & ? & ->)]; [|rewrite Ea; exact I].
      destruct (Fc f cc r) as [(xc & yc & Ec)|(? & ? & ->)]; [|rewrite Ea, Eb; exact I]. rewrite Ea, Eb, Ec. cbn [exact_params3]. split; [exact (Ta _ _ Ea)|split; [exact (Tb _ _ Eb)|exact (Tc _ _ Ec)]]. }
  assert (VM : forall v, In v (seq 0 (a_vars a)) <-> In v (query (scope_of (skel (x_mono e))))).
  { intros v. destruct (SO _ _ MM) as (_ & Q & _). rewrite Q, in_seq. lia. }
  destruct (C255_density (var_dom a) (x_mono e) (x_comps e) e Z (seq 0 (a_vars a)) MK EC EZ (seq_NoDup _ _) VM) as (Q1 & Q2).
  split; [exact Q1|]. split; [|intros HZ; apply Q2; exact HZ]. intros x FR.
  destruct (made_support a gm s true 0 (x_mono e) x Hn HI GS eq_refl HL eq_refl FR MM) as (SM & _).
  destruct (made_ready a gm s true 0 (x_mono e) Hn HI GS HKm ED eq_refl MM) as (B1 & _ & B3).
  assert (FS : Forall (fun m => in_support m x /\ complete m x) (x_comps e)).
  { eapply Forall_impl; [|exact F]. intros c M. eapply (made_support a g s true 0 c x); eauto. }
  destruct (exp_accepts e x Z) as (v & Ev); auto.
  - destruct MM as (tm & zm & TM & CM). apply (comp_mono _ _ _ _ _ CM). reflexivity.
  - apply Forall_forall. intros c Hc. rewrite Forall_forall in F, FS. destruct (made_ready a g s true 0 c Hn HI GS HK ED eq_refl (F c Hc)) as (? & ? & ?). destruct (FS c Hc). auto.
  - exists v. split; [exact Ev|]. intros HZ. destruct (Q2 HZ) as (Q3 & _). apply Q3; [|exact Ev]. eapply Forall_impl; [|exact FS]. intros c [_ Q']. exact Q'.
Qed.
Print Assumptions C271_density.

(** C272: the initial signed weights are in [-2,2) for at most two variables and in
    [0,1) for more; then every component is a nonnegative function. *)
Theorem C272_initial_weights : forall a s cs, good_seeds s -> sos_model a s = Ok cs ->
  let range := fun w => if Nat.leb (a_vars a) 2 then -2 <= w < 2 else 0 <= w < 1 in
  Forall (fun c => signed_weights range c /\ Forall (state_weights range) (sleaves c)) cs /\
  ((2 < a_vars a)%nat -> Forall (fun c => forall x, 0 <= fun_of c x 0%nat 0%nat 0%nat) cs).
Proof.
  intros a s cs GS H. cbn zeta. destruct (sos_model_inv a s cs GS H) as (_ & V & _ & F & _). destruct GS as (SH & UD). split.
  - eapply Forall_impl; [|exact F]. intros c (i & _ & t & z & T & C). destruct (UD z) as (U1 & U2 & U3). split.
    + eapply comp_weights; [|exact C]. split; intros; apply rand_range; auto.
    + eapply Forall_impl; [|exact (comp_leaves _ _ _ _ _ C)]. intros l (sc & _ & K). destruct l as [l|s0 ch0 rep0 K0 w0]; [exact I|]. unfold leaf_of in K.
      assert (exists p, w0 = fun f c r k => rand_uniform (a_vars a) (d_state (dr_of s z) p f c r k)) as (p & ->).
      { cbn [scfg g_layer g_signed g_signed_in g_vars andb] in K. destruct (a_layer a); try (destruct (signed_inputs a); [destruct K as (_ & p & K); injection K as _ _ _ _ ->; eauto|destruct K as (lg & K); discriminate]).
        destruct K as (? & ? & K). discriminate. }
      cbn [state_weights]. intros. apply rand_range. apply U3.
  - intros HN. eapply Forall_impl; [|exact F]. intros c (i & _ & t & z & T & C) x. eapply comp_nonneg; [|apply UD|exact C].
    intros u Hu. cbn [scfg g_vars]. pose proof (rand_range (a_vars a) u Hu) as Q. destruct (Nat.leb_spec (a_vars a) 2); [lia|apply Q].
Qed.
Print Assumptions C272_initial_weights.

(** C273: sampling from a model over more than one variable (pixel) with more than one
    sum unit raises, whatever the rows and the number of steps. *)
Definition several (a : sos_args) : Prop :=
  match a_graph a with Qt | Qt2 | Qt4 => exists c h w, a_img a = Some (c, h, w) /\ (2 <= h * w)%nat | _ => (2 <= a_vars a)%nat end.
Theorem C273_sampling_refuted : forall a s cs, good_seeds s -> sos_model a s = Ok cs -> several a -> (2 <= a_sum a)%nat ->
  forall xs burn steps, socs_sample xs cs burn steps = Err.
Proof.
  intros a s cs GS H HM H2 xs burn steps. destruct (sos_model_inv a s cs GS H) as (SQ & V & L & F & _). apply validate_iff in V. destruct V as (Hn & _ & _ & _ & HI).
  apply no_sampling; [intros E; rewrite E in L; unfold per in L; cbn in L; destruct (a_complex a); lia|]. intros c Hc. rewrite Forall_forall in F. destruct (F c Hc) as (i & _ & t & z & T & C).
  eapply comp_proposal; [| | |exact C]; [reflexivity|exact H2|]. eapply inner_node; eauto.
Qed.
Print Assumptions C273_sampling_refuted.

(** C274: marginalize raises for such a model, whatever the list of variables (even an
    empty one). *)
Theorem C274_marginalize_refuted : forall a s cs, good_seeds s -> sos_model a s = Ok cs -> several a ->
  forall S prune, socs_marginalize S prune cs = Err.
Proof.
  intros a s cs GS H HM S prune. destruct (sos_model_inv a s cs GS H) as (SQ & V & L & F & _). apply validate_iff in V. destruct V as (Hn & _ & _ & _ & HI).
  apply no_marginal; [intros E; rewrite E in L; unfold per in L; cbn in L; destruct (a_complex a); lia|]. intros c Hc. rewrite Forall_forall in F. destruct (F c Hc) as (i & _ & t & z & T & C).
  eapply comp_signed; [| |exact C]; [reflexivity|]. eapply inner_node; eauto.
Qed.
Print Assumptions C274_marginalize_refuted.

(** ** Examples *)
Definition sd0 : seeds := mkSeeds (fun _ _ l => rev l)
  (fun _ => mkDraws (fun _ _ _ _ _ => / 4) (fun _ _ _ _ => / 4) (fun _ _ _ _ _ => / 4) (fun _ _ _ _ _ => 0) (fun _ _ _ _ => (0, 0))).
Lemma sd0_good : good_seeds sd0.
Proof.
  split; [intros z p l; cbn; symmetry; apply Permutation_rev|]. intros z. cbn. repeat split; intros; cbn; lra.
Qed.
Lemma sd0_exact n z : exact_draws n (dr_of sd0 z).
Proof.
  assert (B : big (rand_uniform n (/ 4))).
  { unfold big, rand_uniform, init_low, init_high. pose proof (pow_lt 10 30 ltac:(lra)) as P. assert (/ 10 ^ 30 <= / 10).
    { apply Rinv_le_contravar; [lra|]. replace (10 ^ 30) with (10 * 10 ^ 29) by (cbn; ring). assert (1 <= 10 ^ 29) by (apply pow_R1_Rle; lra). lra. }
    destruct (Nat.leb n 2); [replace ((2 - -2) * / 4 + -2) with (- (1)) by field; rewrite Rabs_Ropp, Rabs_R1|replace ((1 - 0) * / 4 + 0) with (/ 4) by field; rewrite Rabs_right by lra]; lra. }
  assert (B1 : big (exp 0)).
  { unfold big. rewrite exp_0, Rabs_R1. replace 1 with (/ 1) by field. apply Rinv_le_contravar; [lra|]. apply pow_R1_Rle. lra. }
  repeat split; intros; cbn; auto.
Qed.
Definition args (rg : region_graph) (n i u : nat) (img : option (nat * nat * nat)) (structured complex : bool) : sos_args :=
  mkArgs n img i u LEmbedding (Some 3%nat) 2 rg structured complex None 42 2 2.

Lemma tree_of_eq a s i t t' : tree_for a s i t -> build_tree (a_graph a) (a_vars a) (a_img a) (sh_of s (structure_seed (a_seed a) i (a_structured a))) = Ok t' -> t = t'.
Proof. unfold tree_for. congruence. Qed.

Example C266_nonvacuous : exists cs, sos_model (args RndBt 5 3 3 None true true) sd0 = Ok cs.
Proof.
  apply C266_constructor; [exact sd0_good|]. cbn. repeat (split; [lia || exact I|]). split; [exists 3%nat; split; [reflexivity|lia]|]. now left.
Qed.
Example C266_image : exists cs, sos_model (args Qt2 32 2 5 (Some (2, 4, 4)%nat) false false) sd0 = Ok cs.
Proof.
  apply C266_constructor; [exact sd0_good|]. cbn. repeat (split; [lia || exact I || discriminate|]). split; [exists 3%nat; split; [reflexivity|lia]|]. right. intros i t _ T.
  assert (GI : good_image 32 (Some (2, 4, 4)%nat)) by (cbn; lia).
  apply (even_trees Qt2 32 (Some (2, 4, 4)%nat) (sh_of sd0 (structure_seed 42 i false)) t ltac:(lia) GI (proj1 sd0_good _) T 2%nat 2%nat 2%nat eq_refl).
Qed.
Example C267_linear : exists t, build_tree Lt 3 None (fun _ l => l) = Ok t /\ t = TN [0; 1; 2]%nat [TN [0]%nat []; TN [1; 2]%nat [TN [1]%nat []; TN [2]%nat []]].
Proof. eexists. split; reflexivity. Qed.
(** a 3 x 3 image is cut unevenly *)
Example C267_quadtree : exists t, build_tree Qt4 9 (Some (1, 3, 3)%nat) (fun _ l => l) = Ok t /\ ~ even_tree t.
Proof.
  eexists. split; [reflexivity|]. intros H. inversion H as [sc ch HM _ E]. specialize (HM (TN [0]%nat []) (nth 1 ch (TN [] []))). subst ch. cbn in HM.
  assert ([TN [1]%nat []; TN [2]%nat []] = []) as Q by (apply HM; auto). discriminate.
Qed.
Example C268_instance : sos_model (args Lt 3 2 4 None true false) sd0 = Err /\ (exists cs, sos_model (args Lt 3 4 4 None true false) sd0 = Ok cs).
Proof.
  split; [apply C268_units_refuted; [exact sd0_good|cbn; lia|cbn; lia]|]. apply C266_constructor; [exact sd0_good|]. cbn. repeat (split; [lia || exact I|]).
  split; [exists 3%nat; split; [reflexivity|lia]|]. now left.
Qed.
Example C269_nonvacuous : exists cs Z, sos_model (args RndBt 5 3 3 None true true) sd0 = Ok cs /\ partition cs = Ok Z /\ has_states (args RndBt 5 3 3 None true true) /\
  full_row (args RndBt 5 3 3 None true true) (fun _ => Some (INR 1)) /\ several (args RndBt 5 3 3 None true true).
Proof.
  destruct C266_nonvacuous as (cs & E). destruct (C269_components _ _ _ sd0_good E) as (_ & _ & Z & EZ). exists cs, Z. split; [exact E|]. split; [exact EZ|].
  split; [right; exists 3%nat; split; [reflexivity|lia]|]. split; [|cbn; lia]. intros v _. exists (INR 1). split; [reflexivity|]. right. exists 1%nat, 3%nat. repeat split; lia.
Qed.
(** two squares over one variable, every weight -1: Z = 6 *)
Example C269_value : exists cs Z, sos_model (mkArgs 1 None 1 1 LEmbedding (Some 3%nat) 2 Lt true false None 42 1 1) sd0 = Ok cs /\ partition cs = Ok Z /\ Z 0%nat 0%nat 0%nat = 6.
Proof.
  eexists. eexists. split; [reflexivity|]. split; [reflexivity|]. cbn. unfold rand_uniform, init_low, init_high. cbn [Nat.leb]. field.
Qed.
Example C271_nonvacuous : exists e, exp_sos_model (args Qt4 16 2 5 (Some (1, 4, 4)%nat) true true) sd0 = Ok e.
Proof.
  apply C271_constructor; [exact sd0_good|]. cbn. repeat (split; [lia || exact I || discriminate|]). split; [exists 3%nat; split; [reflexivity|lia]|]. right. intros t T.
  assert (GI : good_image 16 (Some (1, 4, 4)%nat)) by (cbn; lia).
  apply (even_trees Qt4 16 (Some (1, 4, 4)%nat) (sh_of sd0 (structure_seed 42 0 true)) t ltac:(lia) GI (proj1 sd0_good _) T 1%nat 2%nat 2%nat eq_refl).
Qed.
