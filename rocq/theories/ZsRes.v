(** What the SOSModel and ExpSOSModel constructors return. *)
From Coq Require Import List Arith ZArith Bool Reals Lia Lra Sorted Permutation.
From Verif Require Import Base ScopeModel ScopeProofs CircuitModel CircuitSpec CircuitBasics CircuitEval CircuitProps Integral MargProofs PruneTop LearnProofs
  LeafModel LeafSpec LeafProofs LeafTop SignedModel SignedSpec SignedProofs SocsExamples SocsProofs SocsTop TripleModel TripleSpec ExpTop ZsModel ZsSpec ZsTree ZsProofs ZsCompat ZsTop ZsComp ZsMain.
Import ListNotations.
Local Open Scope R_scope.

Lemma leaf_vars t : region_tree t -> forall sc, In sc (tree_leaves t) -> incl sc (tscope t).
Proof.
  induction t as [sc0 ch IH] using tnode_ind'. intros H sc Hs. inversion H as [sc' Hn|sc' ch' Hl Hp Hf]; subst.
  - destruct Hs as [<-|[]]. apply incl_refl.
  - rewrite tree_leaves_node in Hs by (destruct ch; [cbn in Hl; lia|discriminate]). apply in_flat_map in Hs. destruct Hs as (t & Ht & Hs).
    rewrite Forall_forall in IH, Hf. pose proof (IH t Ht (Hf t Ht) sc Hs) as I. cbn [tscope]. intros v Hv. apply (Permutation_in (l := flat_map tscope ch)); [now symmetry|].
    apply in_flat_map. exists t. auto.
Qed.

Lemma dom_eq a : a_layer a <> LOther -> dom_of (scfg a (states_of a)) = var_dom a /\ dom_of (mcfg a (states_of a)) = var_dom a.
Proof. intros HL. unfold dom_of, var_dom, states_of, scfg, mcfg. cbn [g_layer g_states]. destruct (a_layer a); auto; congruence. Qed.
Lemma has_states_pos a : a_layer a <> LOther -> has_states a -> a_layer a <> LGaussian -> (0 < states_of a)%nat.
Proof. intros HL [E|(k & E & H)] HG; [congruence|]. unfold states_of. rewrite E. destruct (a_layer a); congruence. Qed.

Lemma exact_sum g d : exact_draws (g_vars g) d -> sum_draws zero_or_normal g d /\ state_draws normal g d.
Proof. intros (A & B & C & _). repeat split; [intros; apply A|intros; apply B|exact C]. Qed.

Lemma leaf_scale g d sc l : exact_draws (g_vars g) d -> leaf_of g d sc l -> match l with SFam a => forall f c r x y, fl_fam a f c r = FNormal x y -> tiny <= exp y | _ => True end.
Proof.
  intros (_ & _ & _ & E) L. unfold leaf_of in L. destruct l as [l|]; [|exact I]. intros f c r x y.
  destruct (g_layer g); try (destruct (g_signed g && g_signed_in g)%bool; [destruct L as (_ & p & L); discriminate|destruct L as (lg & L)]; injection L as ->; cbn [fl_fam mk_fleaf]; discriminate).
  destruct L as (a & p & L). injection L as ->. cbn [fl_fam mk_fleaf]. intros Q. assert (y = snd (d_normal d p f c r)) as -> by congruence.
  pose proof (E p f c r) as B. unfold big in B. rewrite Rabs_right in B; [exact B|]. left. apply exp_pos.
Qed.

Lemma made_component a g s force i c : (0 < a_vars a)%nat -> good_image (a_vars a) (a_img a) -> good_seeds s -> (forall z, exact_draws (a_vars a) (dr_of s z)) ->
  g_vars g = a_vars a -> (g_layer g <> LGaussian -> (0 < g_states g)%nat) -> made_of a g s force i c -> component 1 (dom_of g) c.
Proof.
  intros Hn HI GS ED EV HK (t & z & T & C). pose proof (ED z) as E. rewrite <- EV in E. destruct (exact_sum _ _ E) as (E1 & E2).
  eapply comp_component; eauto. eapply leaves_sorted; eauto.
Qed.

Lemma made_support a g s force i c x : (0 < a_vars a)%nat -> good_image (a_vars a) (a_img a) -> good_seeds s -> g_layer g = a_layer a -> a_layer a <> LOther -> g_states g = states_of a ->
  full_row a x -> made_of a g s force i c -> in_support c x /\ complete c x.
Proof.
  intros Hn HI GS EL HL ES FR M. pose proof (made_cok a g s force i c Hn HI GS M) as [_ _ CV _]. destruct M as (t & z & T & C).
  destruct (tree_facts a s i t Hn HI GS T) as (RT & _ & V). pose proof (comp_leaves _ _ _ _ _ C) as L. unfold in_support, complete.
  assert (ROW : forall sc v, In sc (tree_leaves t) -> In v sc -> exists y, x v = Some y /\ (a_layer a = LGaussian \/ exists k, (k < states_of a)%nat /\ y = INR k)).
  { intros sc v Hs Hv. destruct (FR v) as (y & E & D); [apply V; eapply leaf_vars; eauto|]. exists y. split; [exact E|]. destruct D as [D|(k & K & EK & Hk & ->)]; [now left|].
    destruct (a_layer a) eqn:EA; [right|right|now left|congruence]; exists k; unfold states_of; rewrite EA, EK; auto. }
  assert (ST : a_layer a <> LGaussian -> forall sc v, In sc (tree_leaves t) -> In v sc -> exists k, (k < states_of a)%nat /\ x v = Some (INR k)).
  { intros HG sc v Hs Hv. destruct (ROW sc v Hs Hv) as (y & E & [D|(k & Hk & ->)]); [contradiction|]. exists k. auto. }
  split; [|split].
  - eapply Forall_impl; [|exact L]. intros l (sc & Hs & K). unfold leaf_of in K. rewrite EL in K.
    assert (CAT : forall lg, a_layer a <> LGaussian -> l = SFam (mk_fleaf (mkScope sc []) (g_in g) 1 (fun f c r => FCategorical (g_states g) (lg f c r))) ->
      match l with
      | SFam l => forall f c r, (f < length (query (fl_scope l)))%nat -> (c < fl_ch l)%nat -> (r < fl_rep l)%nat -> exists a, x (nth f (query (fl_scope l)) 0%nat) = Some a /\ supp (fl_fam l f c r) a = true
      | SSC sc _ _ K _ => forall v, In v (query sc) -> exists k, (k < K)%nat /\ x v = Some (INR k)
      end).
    { intros lg HG ->. cbn [fl_scope fl_ch fl_rep fl_fam mk_fleaf query]. intros f c0 r Hf _ _. destruct (ST HG sc (nth f sc 0%nat) Hs) as (k & Hk & E); [now apply nth_In|].
      exists (INR k). split; [exact E|]. cbn [supp]. rewrite asnat_INR, ES. now apply Nat.ltb_lt. }
    assert (SIG : forall p, a_layer a <> LGaussian -> l = SSC (mkScope sc []) (g_in g) 1 (g_states g) (fun f c r k => rand_uniform (g_vars g) (d_state (dr_of s z) p f c r k)) ->
      match l with
      | SFam l => forall f c r, (f < length (query (fl_scope l)))%nat -> (c < fl_ch l)%nat -> (r < fl_rep l)%nat -> exists a, x (nth f (query (fl_scope l)) 0%nat) = Some a /\ supp (fl_fam l f c r) a = true
      | SSC sc _ _ K _ => forall v, In v (query sc) -> exists k, (k < K)%nat /\ x v = Some (INR k)
      end).
    { intros p HG ->. cbn [query]. intros v Hv. rewrite ES. eapply ST; eauto. }
    destruct (a_layer a) eqn:EA.
    + destruct (g_signed g && g_signed_in g)%bool; [destruct K as (_ & p & K); apply (SIG p); [discriminate|exact K]|destruct K as (lg & K); apply (CAT lg); [discriminate|exact K]].
    + destruct (g_signed g && g_signed_in g)%bool; [destruct K as (_ & p & K); apply (SIG p); [discriminate|exact K]|destruct K as (lg & K); apply (CAT lg); [discriminate|exact K]].
    + destruct K as (m0 & s0 & ->). cbn [fl_scope fl_ch fl_rep fl_fam mk_fleaf query]. intros f c0 r Hf _ _.
      destruct (ROW sc (nth f sc 0%nat) Hs) as (y & E & _); [now apply nth_In|]. exists y. split; [exact E|reflexivity].
    + congruence.
  - intros v Hv. apply CV in Hv. apply in_seq in Hv. destruct (FR v) as (y & E & _); [lia|eauto].
  - eapply Forall_impl; [|exact L]. intros l (sc & Hs & K). destruct l as [l|s0 ch0 rep0 K0 w0]; [exact I|]. unfold leaf_of in K. rewrite EL in K.
    destruct (a_layer a) eqn:EA.
    + destruct (g_signed g && g_signed_in g)%bool; [destruct K as (_ & p & K)|destruct K as (lg & K); discriminate]. injection K as -> _ _ _ _. cbn [query]. intros v Hv. destruct (ST ltac:(discriminate) sc v Hs Hv) as (k & _ & E). eauto.
    + destruct (g_signed g && g_signed_in g)%bool; [destruct K as (_ & p & K)|destruct K as (lg & K); discriminate]. injection K as -> _ _ _ _. cbn [query]. intros v Hv. destruct (ST ltac:(discriminate) sc v Hs Hv) as (k & _ & E). eauto.
    + destruct K as (m0 & s1 & K). discriminate.
    + congruence.
Qed.

Lemma made_ready a g s force i c : (0 < a_vars a)%nat -> good_image (a_vars a) (a_img a) -> good_seeds s ->
  (g_layer g <> LGaussian -> (0 < g_states g)%nat) -> (forall z, exact_draws (a_vars a) (dr_of s z)) -> g_vars g = a_vars a -> made_of a g s force i c ->
  built (skel c) /\ sums_monotone c /\ uniform_support c.
Proof.
  intros Hn HI GS HK ED EV M. pose proof (made_component a g s force i c Hn HI GS ED EV HK M) as [B _ _ _ US _ _]. split; [apply B|]. split; [|exact US].
  destruct M as (t & z & T & C). apply (comp_mono _ _ _ _ _ C).
Qed.

(** the inner product of two components over the same tree never raises *)
Lemma made_ip a s i j c c' : (a_structured a = true \/ i = j) -> made_of a (scfg a (states_of a)) s false i c -> made_of a (scfg a (states_of a)) s false j c' -> ip_ok c c' = true.
Proof.
  intros HS (t & z & T & C) (t' & z' & T' & C').
  assert (t = t') as <-.
  { unfold tree_for in T, T'. destruct HS as [HS| ->]; [|congruence]. rewrite HS in T, T'. unfold structure_seed in T, T'. congruence. }
  eapply comp_ip; [|reflexivity|exact C|exact C']. split; reflexivity.
Qed.
Lemma partition_all a s cs : good_seeds s -> sos_model a s = Ok cs -> exists Z, partition cs = Ok Z.
Proof.
  intros GS H. destruct (sos_model_inv a s cs GS H) as (_ & _ & _ & F & _). unfold partition.
  destruct (mapR_all (fun c => inner_product_matrix c c) cs) as (ks & ->); [|cbn [bind]; eauto].
  intros c Hc. rewrite Forall_forall in F. destruct (F c Hc) as (i & _ & M). unfold inner_product_matrix. rewrite (made_ip a s i i c c); eauto.
Qed.

(** ** ExpSOSModel *)
Definition signed_part (a : sos_args) (g : cfg) (s : seeds) (t : tnode) : result (list smod) :=
  if a_complex a
  then bind (build_component t g (dr_of s (a_seed a + 21000)%Z) true) (fun re => bind (build_component t g (dr_of s (a_seed a + 21001)%Z) true) (fun im => Ok [re; im]))
  else bind (build_component t g (dr_of s (a_seed a + 21000)%Z) true) (fun c => Ok [c]).

Lemma exp_inv a s e : good_seeds s -> exp_sos_model a s = Ok e ->
  validate a = true /\ (0 < a_mono_in a)%nat /\ (0 < a_mono_sum a)%nat /\ resolve_states a = Ok (states_of a) /\
  exists t, tree_for a s 0 t /\ length (x_comps e) = per a /\ mk_expsocs (x_mono e) (x_comps e) = Ok e /\
    (exists z, build_component t (mcfg a (states_of a)) (dr_of s z) true = Ok (x_mono e)) /\
    Forall (fun c => exists z, build_component t (scfg a (states_of a)) (dr_of s z) true = Ok c) (x_comps e).
Proof.
  intros GS H. unfold exp_sos_model in H. destruct (validate a) eqn:EV; [|discriminate]. cbn [negb] in H.
  destruct (Nat.eqb_spec (a_mono_in a) 0); [discriminate|]. destruct (Nat.eqb_spec (a_mono_sum a) 0); [discriminate|]. cbn [orb] in H.
  destruct (resolve_states a) as [K|] eqn:EK; [|discriminate]. pose proof (resolve_of _ _ EK) as ->. cbn [bind] in H.
  fold (scfg a (states_of a)) in H. fold (mcfg a (states_of a)) in H. split; [reflexivity|]. split; [lia|]. split; [lia|]. split; [reflexivity|].
  destruct (build_tree _ _ _ _) as [t|] eqn:ET; [|discriminate]. cbn [bind] in H. exists t. split; [exact ET|].
  destruct (build_component t (mcfg a (states_of a)) (dr_of s (a_seed a + 20000)%Z) true) as [mono|] eqn:EM; [|discriminate]. cbn [bind] in H.
  fold (signed_part a (scfg a (states_of a)) s t) in H. destruct (signed_part a (scfg a (states_of a)) s t) as [cs|] eqn:EC; [|discriminate]. cbn [bind] in H.
  assert (e = mkExp mono cs) as -> by now apply mk_expsocs_iff in H. cbn [x_comps x_mono].
  assert (length cs = per a /\ Forall (fun c => exists z, build_component t (scfg a (states_of a)) (dr_of s z) true = Ok c) cs) as (L & F).
  { unfold signed_part in EC. unfold per. destruct (a_complex a).
    - destruct (build_component t (scfg a (states_of a)) (dr_of s (a_seed a + 21000)%Z) true) as [re|] eqn:E1; [|discriminate]. cbn [bind] in EC.
      destruct (build_component t (scfg a (states_of a)) (dr_of s (a_seed a + 21001)%Z) true) as [im|] eqn:E2; [|discriminate]. cbn [bind] in EC. injection EC as <-.
      split; [reflexivity|]. repeat constructor; eauto.
    - destruct (build_component t (scfg a (states_of a)) (dr_of s (a_seed a + 21000)%Z) true) as [re|] eqn:E1; [|discriminate]. cbn [bind] in EC. injection EC as <-.
      split; [reflexivity|]. repeat constructor; eauto. }
  split; [exact L|]. split; [exact H|]. split; [eauto|exact F].
Qed.

Lemma exp_made a s e : good_seeds s -> exp_sos_model a s = Ok e ->
  validate a = true /\ resolve_states a = Ok (states_of a) /\ length (x_comps e) = per a /\ mk_expsocs (x_mono e) (x_comps e) = Ok e /\ x_comps e <> [] /\
  made_of a (mcfg a (states_of a)) s true 0 (x_mono e) /\ Forall (made_of a (scfg a (states_of a)) s true 0) (x_comps e).
Proof.
  intros GS H. destruct (exp_inv a s e GS H) as (A & B & C & D & t & T & L & MK & (zm & EM) & F). split; [exact A|]. split; [exact D|]. split; [exact L|]. split; [exact MK|].
  pose proof (proj1 (validate_iff a) A) as (Hn & Hi & Hs & HL & HI). destruct (tree_facts a s 0 t Hn HI GS T) as (RT & ND & _).
  split; [intros E; rewrite E in L; unfold per in L; destruct (a_complex a); cbn in L; lia|]. split.
  - exists t, zm. split; [exact T|]. apply build_component_inv in EM; auto.
  - eapply Forall_impl; [|exact F]. intros c (z & E). exists t, z. split; [exact T|]. apply build_component_inv in E; auto.
Qed.

Lemma has_top_force g t : has_top g t true = true.
Proof. unfold has_top. apply orb_true_r. Qed.

Lemma exp_Z_all a s e : good_seeds s -> exp_sos_model a s = Ok e -> exists Z, exp_Z e = Ok Z.
Proof.
  intros GS H. destruct (exp_made a s e GS H) as (A & _ & _ & _ & _ & (tm & zm & TM & CM) & F).
  unfold exp_Z. destruct (mapR_all (fun c => triple_product_scalar c c (x_mono e)) (x_comps e)) as (zs & ->); [|cbn [bind]; eauto].
  intros c Hc. rewrite Forall_forall in F. destruct (F c Hc) as (t & z & T & C). assert (t = tm) as -> by (unfold tree_for in *; congruence).
  unfold triple_product_scalar. assert (scalar_shape c = true) as -> by (destruct C as (r & _ & [_ S _ _] & _); now apply scalar_iff).
  assert (scalar_shape (x_mono e) = true) as -> by (destruct CM as (r & _ & [_ S _ _] & _); now apply scalar_iff). cbn [andb].
  unfold triple_product_tensor. erewrite comp_tp; [cbn [bind]; eauto| | | | |exact C|exact C|exact CM]; try (rewrite !has_top_force; reflexivity); split; reflexivity.
Qed.

Lemma exp_of_cok vars mono cs : cs <> [] -> cok vars mono -> Forall (cok vars) cs -> mk_expsocs mono cs = Ok (mkExp mono cs).
Proof.
  intros Hne [B0 S0 V0 E0] F. apply mk_expsocs_iff. split; [reflexivity|]. split; [exact Hne|]. split; [exact S0|]. intros c Hc. rewrite Forall_forall in F.
  destruct (F c Hc) as [B S V E]. split; [exact S|]. apply scope_eqb_spec. rewrite E, E0. split; [|tauto]. intros v. now rewrite V, V0.
Qed.

Lemma mono_states_ok a K : states_ok (mcfg a K).
Proof. unfold states_ok, mcfg. cbn [g_layer g_signed andb]. destruct (a_layer a); auto; discriminate. Qed.

Lemma exp_iff a s : good_seeds s ->
  ((exists e, exp_sos_model a s = Ok e) <->
   (0 < a_vars a)%nat /\ (0 < a_in a)%nat /\ (0 < a_sum a)%nat /\ (0 < a_mono_in a)%nat /\ (0 < a_mono_sum a)%nat /\ good_image (a_vars a) (a_img a) /\ good_graph (a_graph a) (a_img a) /\
   good_states a /\ ((a_in a = a_sum a /\ a_mono_in a = a_mono_sum a) \/ forall t, tree_for a s 0 t -> even_tree t)).
Proof.
  intros GS. split.
  - intros (e & H). destruct (exp_inv a s e GS H) as (A & B & C & D & t & T & L & MK & (zm & EM) & F).
    pose proof (proj1 (validate_iff a) A) as (Hn & Hi & Hs & HL & HI). destruct (tree_facts a s 0 t Hn HI GS T) as (RT & ND & _).
    repeat (split; [assumption|]). split; [eapply tree_exists; eauto|].
    assert (exists c, In c (x_comps e)) as (c & Hc) by (destruct (x_comps e) as [|c r]; [unfold per in L; destruct (a_complex a); discriminate|exists c; now left]).
    rewrite Forall_forall in F. destruct (F c Hc) as (z & EC).
    assert (KO : states_ok (scfg a (states_of a))) by (unfold build_component in EC; destruct (instantiate _ _ _ t) as [r|] eqn:Er; [|discriminate]; eapply inst_leaf_needs; exact Er).
    split; [apply states_iff; auto|]. destruct GS as (_ & UD).
    destruct (proj1 (build_component_iff (scfg a (states_of a)) (dr_of s z) t true (UD z) KO Hi Hs RT ND) (ex_intro _ _ EC)) as [Q|Q].
    + destruct (proj1 (build_component_iff (mcfg a (states_of a)) (dr_of s zm) t true (UD zm) (mono_states_ok _ _) B C RT ND) (ex_intro _ _ EM)) as [Q'|Q']; [left; auto|right].
      intros t' T'. assert (t' = t) as -> by (unfold tree_for in *; congruence). exact Q'.
    + right. intros t' T'. assert (t' = t) as -> by (unfold tree_for in *; congruence). exact Q.
  - intros (Hn & Hi & Hs & Hmi & Hms & HI & HG & HK & HE).
    assert (HL : a_layer a <> LOther) by (unfold good_states in HK; destruct (a_layer a); congruence).
    apply (states_iff a HL) in HK. destruct HK as (EK & KO).
    destruct (proj2 (tree_exists (a_graph a) (a_vars a) (a_img a) (sh_of s (structure_seed (a_seed a) 0 (a_structured a)))) HG) as (t & ET).
    destruct (tree_facts a s 0 t Hn HI GS ET) as (RT & ND & _).
    assert (EV : (g_in (scfg a (states_of a)) = g_sum (scfg a (states_of a)) \/ even_tree t) /\ (g_in (mcfg a (states_of a)) = g_sum (mcfg a (states_of a)) \/ even_tree t)).
    { destruct HE as [(E1 & E2)|HE]; [split; left; assumption|]. split; right; apply HE; exact ET. } destruct EV as (EV1 & EV2).
    pose proof GS as (_ & UD).
    pose proof (fun z => proj2 (build_component_iff (scfg a (states_of a)) (dr_of s z) t true (UD z) KO Hi Hs RT ND) EV1) as BC.
    destruct (proj2 (build_component_iff (mcfg a (states_of a)) (dr_of s (a_seed a + 20000)%Z) t true (UD _) (mono_states_ok _ _) Hmi Hms RT ND) EV2) as (mono & EM).
    assert (exists cs, signed_part a (scfg a (states_of a)) s t = Ok cs /\ cs <> [] /\ Forall (fun c => exists z, build_component t (scfg a (states_of a)) (dr_of s z) true = Ok c) cs) as (cs & EC & NE & F).
    { unfold signed_part. destruct (BC (a_seed a + 21000)%Z) as (c1 & E1), (BC (a_seed a + 21001)%Z) as (c2 & E2). rewrite E1, E2. cbn [bind]. destruct (a_complex a); eexists;
        (split; [reflexivity|]); (split; [discriminate|]); repeat constructor; eauto. }
    assert (CK : forall g z c, (1 <= g_sum g)%nat -> build_component t g (dr_of s z) true = Ok c -> cok (seq 0 (a_vars a)) c).
    { intros g z c Hg E. apply (made_cok a g s true 0 c Hn HI GS). exists t, z. split; [exact ET|]. now apply build_component_inv. }
    exists (mkExp mono cs). unfold exp_sos_model. rewrite (proj2 (validate_iff a)) by auto. cbn [negb].
    destruct (Nat.eqb_spec (a_mono_in a) 0); [lia|]. destruct (Nat.eqb_spec (a_mono_sum a) 0); [lia|]. cbn [orb]. rewrite EK. cbn [bind].
    fold (scfg a (states_of a)). fold (mcfg a (states_of a)). rewrite ET. cbn [bind]. rewrite EM. cbn [bind]. fold (signed_part a (scfg a (states_of a)) s t). rewrite EC. cbn [bind].
    apply (exp_of_cok (seq 0 (a_vars a))); [exact NE|eapply CK; [|exact EM]; exact Hms|]. eapply Forall_impl; [|exact F]. intros c (z & E). eapply CK; [|exact E]. exact Hs.
Qed.
