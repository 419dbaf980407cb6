(** The SOSModel and ExpSOSModel constructors. *)
From Coq Require Import List Arith ZArith Bool Reals Lia Lra Sorted Permutation.
From Verif Require Import Base ScopeModel ScopeProofs CircuitModel CircuitSpec CircuitBasics CircuitEval CircuitProps MargProofs PruneTop LearnProofs
  LeafModel LeafSpec LeafTop SignedModel SignedSpec SignedProofs SocsExamples SocsProofs SocsTop TripleModel TripleSpec ExpTop ZsModel ZsSpec ZsTree ZsProofs ZsCompat ZsTop ZsComp.
Import ListNotations.
Local Open Scope R_scope.

Definition scfg (a : sos_args) (K : nat) : cfg := mkCfg (a_in a) (a_sum a) (a_layer a) K (a_vars a) true (signed_inputs a).
Definition mcfg (a : sos_args) (K : nat) : cfg := mkCfg (a_mono_in a) (a_mono_sum a) (a_layer a) K (a_vars a) false false.

Lemma validate_iff a : validate a = true <-> (0 < a_vars a)%nat /\ (0 < a_in a)%nat /\ (0 < a_sum a)%nat /\ a_layer a <> LOther /\ good_image (a_vars a) (a_img a).
Proof.
  unfold validate, good_image. rewrite !andb_true_iff, !negb_true_iff, !Nat.eqb_neq.
  assert ((match a_layer a with LOther => false | _ => true end = true) <-> a_layer a <> LOther) as -> by (destruct (a_layer a); split; congruence).
  assert ((match a_img a with None => true | Some (c, h, w) => (negb (Nat.eqb c 0) && negb (Nat.eqb h 0) && negb (Nat.eqb w 0) && Nat.eqb (c * h * w) (a_vars a))%bool end = true) <->
    match a_img a with Some (c, h, w) => (0 < c)%nat /\ (0 < h)%nat /\ (0 < w)%nat /\ (c * h * w = a_vars a)%nat | None => True end) as ->.
  { destruct (a_img a) as [[[c h] w]|]; [|tauto]. rewrite !andb_true_iff, !negb_true_iff, !Nat.eqb_neq, Nat.eqb_eq. intuition lia. }
  intuition lia.
Qed.

Lemma tree_exists rg n img sh : (exists t, build_tree rg n img sh = Ok t) <-> good_graph rg img.
Proof.
  unfold good_graph, build_tree. destruct rg; try (split; [now auto|now eauto]).
  - destruct img as [[[c h] w]|]; (split; [intros (t & H)|intros H]); [discriminate|eauto|discriminate|congruence].
  - destruct img as [[[c h] w]|]; (split; [intros (t & H)|intros H]); [discriminate|eauto|discriminate|congruence].
  - destruct img as [[[c h] w]|]; (split; [intros (t & H)|intros H]); [discriminate|eauto|discriminate|congruence].
  - split; [intros (t & H); discriminate|intros []].
Qed.

(** what is known of the tree of a square *)
Lemma tree_facts a s i t : (0 < a_vars a)%nat -> good_image (a_vars a) (a_img a) -> good_seeds s -> tree_for a s i t ->
  region_tree t /\ NoDup (tscope t) /\ (forall v, In v (tscope t) <-> (v < a_vars a)%nat).
Proof.
  intros Hn HI (SH & _) H. destruct (build_tree_ok _ _ _ _ t Hn HI (SH _) H) as (R & P & _). split; [exact R|]. split.
  - apply (Permutation_NoDup (l := seq 0 (a_vars a))); [now symmetry|apply seq_NoDup].
  - intros v. split; intros Q.
    + apply (Permutation_in _ P) in Q. apply in_seq in Q. lia.
    + apply (Permutation_in (l := seq 0 (a_vars a))); [now symmetry|]. apply in_seq. lia.
Qed.
Lemma map_seq_sorted (f : nat -> nat) n : (forall i j, (i < j)%nat -> (f i < f j)%nat) -> forall b, StronglySorted lt (map f (seq b n)).
Proof.
  intros Hf. induction n as [|n IH]; intros b; cbn [seq map]; constructor; [apply IH|]. apply Forall_forall. intros v Hv. apply in_map_iff in Hv.
  destruct Hv as (j & <- & Hj). apply in_seq in Hj. apply Hf. lia.
Qed.
Lemma pixel_sorted c h w y x : (y < h)%nat -> (x < w)%nat -> StronglySorted lt (pixel c h w y x).
Proof. intros Hy Hx. apply map_seq_sorted. intros i j H. assert (0 < h * w)%nat as P by (apply Nat.mul_pos_pos; lia). pose proof (proj1 (Nat.mul_lt_mono_pos_r _ i j P) H). lia. Qed.
Lemma leaves_sorted a s i t : (0 < a_vars a)%nat -> good_image (a_vars a) (a_img a) -> good_seeds s -> tree_for a s i t -> Forall (StronglySorted lt) (tree_leaves t).
Proof.
  intros Hn HI (SH & _) H. destruct (build_tree_ok _ _ _ _ t Hn HI (SH _) H) as (_ & _ & L).
  assert (A : Forall (fun l => length l = 1%nat) (tree_leaves t) -> Forall (StronglySorted lt) (tree_leaves t)).
  { intros F. eapply Forall_impl; [|exact F]. intros l E. destruct l as [|v [|v' l]]; try discriminate. repeat constructor. }
  assert (B : (exists c h w, a_img a = Some (c, h, w) /\ Forall (fun l => exists y x, (y < h)%nat /\ (x < w)%nat /\ l = pixel c h w y x) (tree_leaves t)) -> Forall (StronglySorted lt) (tree_leaves t)).
  { intros (c & h & w & _ & F). eapply Forall_impl; [|exact F]. intros l (y & x & Hy & Hx & ->). now apply pixel_sorted. }
  destruct (a_graph a); auto.
Qed.

(** what one square is made of *)
Definition made_of (a : sos_args) (g : cfg) (s : seeds) (force : bool) (i : nat) (c : smod) : Prop :=
  exists t z, tree_for a s i t /\ comp_of g (dr_of s z) t force c.

Definition per (a : sos_args) : nat := if a_complex a then 2%nat else 1%nat.

Lemma square_inv a g s i cs : (0 < a_vars a)%nat -> good_image (a_vars a) (a_img a) -> good_seeds s -> (1 <= g_sum g)%nat ->
  square a g s i = Ok cs -> length cs = per a /\ Forall (made_of a g s false i) cs.
Proof.
  intros Hn HI GS Hs H. unfold square in H. destruct (build_tree _ _ _ _) as [t|] eqn:ET; [|discriminate]. cbn [bind] in H.
  destruct (tree_facts a s i t Hn HI GS ET) as (RT & ND & _). unfold per.
  destruct (a_complex a).
  - destruct (build_component t g (dr_of s (a_seed a + 10000 + 2 * Z.of_nat i)%Z) false) as [re|] eqn:E1; [|discriminate]. cbn [bind] in H.
    destruct (build_component t g (dr_of s (a_seed a + 10000 + 2 * Z.of_nat i + 1)%Z) false) as [im|] eqn:E2; [|discriminate]. cbn [bind] in H.
    injection H as <-. apply build_component_inv in E1, E2; auto. split; [reflexivity|]. constructor; [|constructor; [|constructor]]; eexists t, _; eauto.
  - destruct (build_component t g (dr_of s (a_seed a + 10000 + Z.of_nat i)%Z) false) as [c|] eqn:E1; [|discriminate]. cbn [bind] in H.
    injection H as <-. apply build_component_inv in E1; auto. split; [reflexivity|]. constructor; [|constructor]; eexists t, _; eauto.
Qed.
Lemma square_iff a g s i : (0 < a_vars a)%nat -> good_image (a_vars a) (a_img a) -> good_seeds s -> (1 <= g_in g)%nat -> (1 <= g_sum g)%nat -> states_ok g -> good_graph (a_graph a) (a_img a) ->
  ((exists cs, square a g s i = Ok cs) <-> (g_in g = g_sum g \/ forall t, tree_for a s i t -> even_tree t)).
Proof.
  intros Hn HI GS Hi Hs K HG. destruct (proj2 (tree_exists (a_graph a) (a_vars a) (a_img a) (sh_of s (structure_seed (a_seed a) i (a_structured a)))) HG) as (t & ET).
  destruct (tree_facts a s i t Hn HI GS ET) as (RT & ND & _). destruct GS as (_ & UD).
  assert (EQ : (forall t', tree_for a s i t' -> even_tree t') <-> even_tree t).
  { split; [auto|]. unfold tree_for. intros H t' E. rewrite ET in E. now injection E as <-. }
  rewrite EQ. pose proof (fun z => build_component_iff g (dr_of s z) t false (UD z) K Hi Hs RT ND) as BI. unfold square. rewrite ET. cbn [bind]. split.
  - intros (cs & H). destruct (a_complex a).
    + destruct (build_component t g (dr_of s (a_seed a + 10000 + 2 * Z.of_nat i)%Z) false) as [c|] eqn:E1; [|discriminate]. eapply BI; eauto.
    + destruct (build_component t g (dr_of s (a_seed a + 10000 + Z.of_nat i)%Z) false) as [c|] eqn:E1; [|discriminate]. eapply BI; eauto.
  - intros HE. destruct (a_complex a).
    + destruct (proj2 (BI (a_seed a + 10000 + 2 * Z.of_nat i)%Z) HE) as (re & ->), (proj2 (BI (a_seed a + 10000 + 2 * Z.of_nat i + 1)%Z) HE) as (im & ->). cbn [bind]. eauto.
    + destruct (proj2 (BI (a_seed a + 10000 + Z.of_nat i)%Z) HE) as (c & ->). cbn [bind]. eauto.
Qed.

Lemma made_cok a g s force i c : (0 < a_vars a)%nat -> good_image (a_vars a) (a_img a) -> good_seeds s -> made_of a g s force i c -> cok (seq 0 (a_vars a)) c.
Proof.
  intros Hn HI GS (t & z & T & (root & _ & [B S V E] & _)). destruct (tree_facts a s i t Hn HI GS T) as (_ & _ & W). constructor; auto.
  intros v. rewrite V, W, in_seq. lia.
Qed.
Lemma socs_of_cok vars cs : cs <> [] -> Forall (cok vars) cs -> mk_socs cs = Ok cs.
Proof.
  intros Hne F. unfold mk_socs. destruct cs as [|c0 cs]; [congruence|].
  assert (forallb (fun c => (all_equal [scope_of (skel c0); scope_of (skel c)] && shape_eqb (out_shape (skel c)) (out_shape (skel c0)))%bool) (c0 :: cs) = true) as ->; [|reflexivity].
  apply forallb_forall. intros c Hc. pose proof (Forall_inv F) as [B0 S0 V0 E0]. rewrite Forall_forall in F. destruct (F c Hc) as [B S V E].
  apply andb_true_iff. split.
  - unfold all_equal. cbn [ae_loop]. assert (scope_eqb (scope_of (skel c0)) (scope_of (skel c)) = true) as ->; [|reflexivity].
    apply scope_eqb_spec. rewrite E, E0. split; [|tauto]. intros v. now rewrite V, V0.
  - rewrite S, S0. reflexivity.
Qed.

Lemma mapR_concat {A} (f : nat -> result (list A)) (P : nat -> A -> Prop) k l css : mapR f l = Ok css -> (forall i cs, In i l -> f i = Ok cs -> length cs = k /\ Forall (P i) cs) ->
  length (concat css) = (length l * k)%nat /\ Forall (fun c => exists i, In i l /\ P i c) (concat css).
Proof.
  intros H HP. apply mapR_ok in H. induction H as [|i cs l css E H IH]; [split; [reflexivity|constructor]|].
  destruct (HP i cs) as (L & F); [now left|assumption|]. destruct IH as (L' & F'); [intros; apply HP; [now right|assumption]|].
  cbn [concat length]. rewrite app_length. split; [lia|]. apply Forall_app. split.
  - eapply Forall_impl; [|exact F]. intros c Hc. exists i. split; [now left|exact Hc].
  - eapply Forall_impl; [|exact F']. intros c (j & Hj & Hc). exists j. split; [now right|exact Hc].
Qed.
Lemma mapR_each {A B} (f : A -> result B) l bs a : mapR f l = Ok bs -> In a l -> exists b, f a = Ok b.
Proof.
  intros H. apply mapR_ok in H. induction H as [|x y l bs E H IH]; [intros []|]. intros [<-|Hi]; eauto.
Qed.

Definition states_of (a : sos_args) : nat := match a_layer a with LCategorical | LEmbedding => match a_states a with Some k => k | None => 0%nat end | _ => 0%nat end.
Lemma resolve_of a K : resolve_states a = Ok K -> K = states_of a.
Proof. unfold resolve_states, states_of. destruct (a_layer a); [destruct (a_states a)|destruct (a_states a)| |]; congruence. Qed.

Lemma sos_model_inv a s cs : good_seeds s -> sos_model a s = Ok cs ->
  (0 < a_squares a)%nat /\ validate a = true /\ length cs = (a_squares a * per a)%nat /\
  Forall (fun c => exists i, (i < a_squares a)%nat /\ made_of a (scfg a (states_of a)) s false i c) cs /\
  resolve_states a = Ok (states_of a) /\ good_graph (a_graph a) (a_img a).
Proof.
  intros GS H. unfold sos_model in H. destruct (Nat.eqb_spec (a_squares a) 0); [discriminate|]. destruct (validate a) eqn:EV; [|discriminate]. cbn [negb] in H.
  destruct (resolve_states a) as [K|] eqn:EK; [|discriminate]. cbn [bind] in H. fold (scfg a K) in H. pose proof (resolve_of _ _ EK) as ->.
  apply validate_iff in EV. destruct EV as (Hn & Hi & Hs & HL & HI).
  destruct (mapR _ _) as [css|] eqn:EM; [|discriminate]. cbn [bind] in H.
  assert (cs = concat css) as ->.
  { unfold mk_socs in H. destruct (concat css) as [|c r]; [discriminate|]. destruct (forallb _ _); [congruence|discriminate]. }
  destruct (mapR_concat _ (made_of a (scfg a (states_of a)) s false) (per a) _ _ EM) as (L & F).
  { intros i cs _ E. eapply square_inv; eauto. }
  rewrite seq_length in L. split; [lia|]. split; [reflexivity|]. split; [exact L|]. split.
  - eapply Forall_impl; [|exact F]. intros c (i & Hi' & M). exists i. split; [apply in_seq in Hi'; lia|exact M].
  - split; [reflexivity|]. destruct (mapR_each _ _ _ 0%nat EM) as (b & Eb); [apply in_seq; lia|]. unfold square in Eb.
    destruct (build_tree (a_graph a) (a_vars a) (a_img a) (sh_of s (structure_seed (a_seed a) 0 (a_structured a)))) as [t|] eqn:ET; [|discriminate].
    eapply tree_exists; eauto.
Qed.

Lemma states_iff a : a_layer a <> LOther -> (good_states a <-> resolve_states a = Ok (states_of a) /\ states_ok (scfg a (states_of a))).
Proof.
  intros HL. unfold good_states, resolve_states, states_of, states_ok, scfg. cbn [g_layer g_states g_signed g_signed_in andb].
  destruct (a_layer a); [| |tauto|congruence].
  - split.
    + intros (k & -> & H). auto.
    + intros (E & H). destruct (a_states a) as [k|]; [|discriminate]. eauto.
  - split.
    + intros (k & -> & H). auto.
    + intros (E & H). destruct (a_states a) as [k|]; [|discriminate]. eauto.
Qed.

Lemma inst_leaf_needs g d p t m : instantiate g d p t = Ok m -> states_ok g.
Proof.
  revert p m. induction t as [sc ch IH] using tnode_ind'. intros p m H. destruct ch as [|c ch].
  - cbn [instantiate] in H. unfold make_leaf in H. unfold states_ok.
    assert (Q : forall w, smk_leaf (SSC (mkScope sc []) (g_in g) 1 (g_states g) w) = Ok m -> (0 < g_states g)%nat).
    { intros w E. unfold smk_leaf in E. cbn [skel] in E. destruct (leaf_okb _); [|discriminate]. destruct (g_states g); [discriminate|lia]. }
    destruct (g_layer g); [| |exact I|]; intros E; rewrite E in H; eapply Q; exact H.
  - cbn [instantiate] in H. destruct (instantiate g d (0%nat :: p) c) as [m'|] eqn:E; [|discriminate]. exact (Forall_inv IH _ _ E).
Qed.

Lemma sos_model_iff a s : good_seeds s ->
  ((exists cs, sos_model a s = Ok cs) <->
   (0 < a_squares a)%nat /\ (0 < a_vars a)%nat /\ (0 < a_in a)%nat /\ (0 < a_sum a)%nat /\ good_image (a_vars a) (a_img a) /\ good_graph (a_graph a) (a_img a) /\
   good_states a /\ (a_in a = a_sum a \/ forall i t, (i < a_squares a)%nat -> tree_for a s i t -> even_tree t)).
Proof.
  intros GS. split.
  - intros (cs & H). destruct (sos_model_inv a s cs GS H) as (A1 & A2 & _ & _ & A5 & A6). apply validate_iff in A2. destruct A2 as (Hn & Hi & Hs & HL & HI).
    assert (SQ : forall i, (i < a_squares a)%nat -> exists cs, square a (scfg a (states_of a)) s i = Ok cs).
    { intros i Hl. unfold sos_model in H. destruct (Nat.eqb_spec (a_squares a) 0); [lia|]. destruct (negb (validate a)); [discriminate|]. rewrite A5 in H. cbn [bind] in H.
      destruct (mapR _ _) as [css|] eqn:EM; [|discriminate]. apply (mapR_each _ _ _ i EM). apply in_seq. lia. }
    assert (KO : states_ok (scfg a (states_of a))).
    { destruct (SQ 0%nat A1) as (c0 & E). unfold square in E. destruct (build_tree _ _ _ _) as [t|]; [|discriminate]. cbn [bind] in E.
      assert (forall z, (exists c, build_component t (scfg a (states_of a)) (dr_of s z) false = Ok c) -> states_ok (scfg a (states_of a))) as Q.
      { intros z (c & Ec). unfold build_component in Ec. destruct (instantiate _ _ _ _) as [r|] eqn:Er; [|discriminate]. eapply inst_leaf_needs; eauto. }
      destruct (a_complex a).
      - destruct (build_component t (scfg a (states_of a)) (dr_of s (a_seed a + 10000 + 2 * Z.of_nat 0)%Z) false) as [c|] eqn:Ec; [|discriminate]. eapply Q; eauto.
      - destruct (build_component t (scfg a (states_of a)) (dr_of s (a_seed a + 10000 + Z.of_nat 0)%Z) false) as [c|] eqn:Ec; [|discriminate]. eapply Q; eauto. }
    repeat (split; [assumption|]). split; [apply states_iff; auto|].
    destruct (Nat.eq_dec (a_in a) (a_sum a)) as [E|E]; [now left|]. right. intros i t Hl HT.
    destruct (proj1 (square_iff a (scfg a (states_of a)) s i Hn HI GS Hi Hs KO A6) (SQ i Hl)) as [Q|Q]; [contradiction|auto].
  - intros (A1 & Hn & Hi & Hs & HI & HG & HK & HE).
    assert (HL : a_layer a <> LOther) by (unfold good_states in HK; destruct (a_layer a); congruence).
    apply (states_iff a HL) in HK. destruct HK as (EK & KO).
    unfold sos_model. destruct (Nat.eqb_spec (a_squares a) 0); [lia|]. rewrite (proj2 (validate_iff a)) by auto. cbn [negb]. rewrite EK. cbn [bind]. fold (scfg a (states_of a)).
    destruct (mapR_all (square a (scfg a (states_of a)) s) (seq 0 (a_squares a))) as (css & EM).
    { intros i Hl. apply in_seq in Hl. apply square_iff; auto. destruct HE as [HE|HE]; [now left|right]. intros t HT. apply (HE i); [lia|exact HT]. }
    rewrite EM. cbn [bind]. destruct (mapR_concat _ (made_of a (scfg a (states_of a)) s false) (per a) _ _ EM) as (L & F).
    { intros i cs _ E. eapply square_inv; eauto. }
    exists (concat css). apply (socs_of_cok (seq 0 (a_vars a))).
    + intros E. rewrite E, seq_length in L. unfold per in L. cbn in L. destruct (a_complex a); lia.
    + eapply Forall_impl; [|exact F]. intros c (i & _ & M). eapply made_cok; eauto.
Qed.
