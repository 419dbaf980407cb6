(** Components of the SOS models meet the hypotheses of the theorems about sums of squares. *)
From Coq Require Import List Arith ZArith Bool Reals Lia Lra Sorted Permutation.
From Verif Require Import Base ScopeModel ScopeProofs CircuitModel CircuitSpec CircuitBasics CircuitEval CircuitProps MargProofs PruneTop LearnProofs
  Integral LeafModel LeafSpec LeafTop LeafProofs SignedModel SignedSpec SignedProofs SocsExamples TripleModel TripleSpec ExpTop ZsModel ZsSpec ZsTree ZsProofs ZsCompat ZsTop.
Import ListNotations.
Local Open Scope R_scope.

Lemma sleaves_flat d2 sc cs : sleaves (SCat d2 sc cs) = flat_map sleaves cs.
Proof. reflexivity. Qed.
Lemma weights_all (P : R -> Prop) d2 sc cs : signed_weights P (SCat d2 sc cs) <-> Forall (signed_weights P) cs.
Proof.
  cbn [signed_weights]. induction cs as [|c cs IH]; [split; [constructor|trivial]|]. rewrite IH. split; [intros [A B]; now constructor|intros H; inversion H; now split].
Qed.
Lemma monotone_all d2 sc cs : monotone (SCat d2 sc cs) <-> Forall monotone cs.
Proof.
  cbn [monotone]. induction cs as [|c cs IH]; [split; [constructor|trivial]|]. rewrite IH. split; [intros [A B]; now constructor|intros H; inversion H; now split].
Qed.
Lemma sums_monotone_all d2 sc cs : sums_monotone (SCat d2 sc cs) <-> Forall sums_monotone cs.
Proof.
  cbn [sums_monotone]. induction cs as [|c cs IH]; [split; [constructor|trivial]|]. rewrite IH. split; [intros [A B]; now constructor|intros H; inversion H; now split].
Qed.

Definition leaf_made (g : cfg) (d : draws) (t : tnode) (l : sleaf) : Prop := exists sc, In sc (tree_leaves t) /\ leaf_of g d sc l.

Lemma of_tree_leaves g d t m : of_tree g d t m -> Forall (leaf_made g d t) (sleaves m).
Proof.
  revert t m. apply (of_tree_ind' g d (fun t m => Forall (leaf_made g d t) (sleaves m))).
  - intros sc l L I. constructor; [|constructor]. exists sc. split; [now left|exact L].
  - intros sc ch cs sc' m p FO IH HL Hm Hp Hc I FM. assert (sleaves m = flat_map sleaves cs) as -> by (destruct (g_signed g); [subst m|destruct FM as (lg & ->)]; reflexivity).
    assert (ch <> []) as Hne by (destruct ch; [cbn in HL; lia|discriminate]).
    apply Forall_forall. intros l Hl. unfold leaf_made. rewrite tree_leaves_node by assumption. clear - IH Hl.
    induction IH as [|t c ch cs H IH IHH]; [destruct Hl|]. cbn [flat_map] in Hl |- *. apply in_app_iff in Hl. destruct Hl as [Hl|Hl].
    + rewrite Forall_forall in H. destruct (H l Hl) as (sc & Hs & L). exists sc. split; [apply in_app_iff; now left|exact L].
    + destruct (IHH Hl) as (sc & Hs & L). exists sc. split; [apply in_app_iff; now right|exact L].
Qed.

(** every sum weight satisfies [P] *)
Definition sum_draws (P : R -> Prop) (g : cfg) (d : draws) : Prop :=
  (forall p f i o r, P (rand_uniform (g_vars g) (d_sum d p f i o r))) /\ (forall f i o r, P (rand_uniform (g_vars g) (d_top d f i o r))).
Definition state_draws (P : R -> Prop) (g : cfg) (d : draws) : Prop := forall p f c r k, P (rand_uniform (g_vars g) (d_state d p f c r k)).

Lemma of_tree_weights P g d t m : sum_draws P g d -> of_tree g d t m -> signed_weights P m.
Proof.
  intros (HP & _). revert t m. apply (of_tree_ind' g d (fun t m => signed_weights P m)).
  - intros sc l L I. exact Logic.I.
  - intros sc ch cs sc' m p FO IH HL Hm Hp Hc I FM. assert (signed_weights P (SCat false sc' cs)) as W.
    { apply weights_all. clear - IH. induction IH; constructor; auto. }
    destruct (g_signed g); [subst m|destruct FM as (lg & ->)]; cbn [signed_weights]; [split; [exact W|intros; apply HP]|exact W].
Qed.
Lemma of_tree_mono g d t m : of_tree g d t m -> sums_monotone m /\ (g_signed g = false -> monotone m).
Proof.
  revert t m. apply (of_tree_ind' g d (fun t m => sums_monotone m /\ (g_signed g = false -> monotone m))).
  - intros sc l L I. split; [exact Logic.I|]. intros E. unfold leaf_of in L. rewrite E in L. cbn [andb] in L. cbn [monotone].
    destruct (g_layer g); [destruct L as (lg & ->)|destruct L as (lg & ->)|destruct L as (a & b & ->)|destruct L as (lg & ->)]; exact Logic.I.
  - intros sc ch cs sc' m p FO IH HL Hm Hp Hc I FM. assert (sums_monotone (SCat false sc' cs) /\ (g_signed g = false -> monotone (SCat false sc' cs))) as (W1 & W2).
    { rewrite sums_monotone_all, monotone_all. clear - IH. induction IH as [|? ? ? ? [H1 H2] IH IHH]; [auto|]. destruct IHH. split; [|intros E]; constructor; auto. }
    destruct (g_signed g) eqn:E; [subst m|destruct FM as (lg & ->)]; cbn [sums_monotone monotone].
    + split; [exact W1|discriminate].
    + assert (monotone (SCat false sc' cs)) as W3 by (apply W2; reflexivity). split; [exact W3|intros _; exact W3].
Qed.

(** the same for finished components *)
Lemma scalar_in_sleaves r : sleaves (scalar_in r) = sleaves r.
Proof. unfold scalar_in. now destruct (Nat.eqb _ _). Qed.
Lemma scalar_in_weights P r : signed_weights P (scalar_in r) <-> signed_weights P r.
Proof. unfold scalar_in. now destruct (Nat.eqb _ _). Qed.
Lemma scalar_in_mono r : monotone (scalar_in r) <-> monotone r.
Proof. unfold scalar_in. now destruct (Nat.eqb _ _). Qed.
Lemma scalar_in_smono r : sums_monotone (scalar_in r) <-> sums_monotone r.
Proof. unfold scalar_in. now destruct (Nat.eqb _ _). Qed.

Lemma comp_parts g d t force c : comp_of g d t force c -> exists root, of_tree g d t root /\ sleaves c = sleaves root /\
  (c = scalar_in root \/ (g_signed g = true /\ c = SSigned (scalar_in root) 1 1 (fun f i o r => rand_uniform (g_vars g) (d_top d f i o r))) \/
   (g_signed g = false /\ exists lg, c = SSum (scalar_in root) 1 1 lg)).
Proof.
  intros (root & O & C & F). exists root. split; [exact O|]. pose proof (of_tree_iok _ _ _ _ O) as I. destruct (scalar_in_ok g t root I) as (B & U & _).
  destruct (has_top g t force).
  - destruct (make_sum_inv g _ _ _ _ B U (le_n 1) F) as (_ & _ & _ & _ & _ & _ & FM). rewrite <- (scalar_in_sleaves root).
    destruct (g_signed g); [subst c|destruct FM as (lg & ->)]; (split; [reflexivity|]); right; [left|right]; eauto.
  - subst c. split; [apply scalar_in_sleaves|]. now left.
Qed.

Lemma comp_leaves g d t force c : comp_of g d t force c -> Forall (leaf_made g d t) (sleaves c).
Proof. intros H. destruct (comp_parts _ _ _ _ _ H) as (root & O & -> & _). now apply of_tree_leaves. Qed.
Lemma comp_weights P g d t force c : sum_draws P g d -> comp_of g d t force c -> signed_weights P c.
Proof.
  intros HP H. destruct (comp_parts _ _ _ _ _ H) as (root & O & _ & [->|[(_ & ->)|(_ & lg & ->)]]); cbn [signed_weights];
    [|split; [|intros; apply HP]|]; apply scalar_in_weights; eapply of_tree_weights; eauto.
Qed.
Lemma comp_mono g d t force c : comp_of g d t force c -> sums_monotone c /\ (g_signed g = false -> monotone c).
Proof.
  intros H. destruct (comp_parts _ _ _ _ _ H) as (root & O & _ & [->|[(E & ->)|(E & lg & ->)]]); destruct (of_tree_mono _ _ _ _ O) as (A & B); cbn [sums_monotone monotone];
    rewrite ?scalar_in_smono, ?scalar_in_mono; split; auto. intros E'; congruence.
Qed.

(** the domain of the variables *)
Definition dom_of (g : cfg) : nat -> domain := fun _ => match g_layer g with LGaussian => DReal | _ => DFin (map INR (seq 0 (g_states g))) end.

Lemma leaf_facts g d sc l : (g_layer g <> LGaussian -> (0 < g_states g)%nat) -> leaf_of g d sc l -> state_draws normal g d ->
  query (sl_scope l) = sc /\ sleaf_fits (dom_of g) l /\ match l with SFam l => common_support l | SSC _ _ _ _ _ => True end /\
  state_weights normal l /\ (match l with SFam a => forall f c r, (exists x y, fl_fam a f c r = FNormal x y) \/ (exists K lg, fl_fam a f c r = FCategorical K lg) | _ => True end).
Proof.
  intros HK L HN. unfold leaf_of in L. unfold dom_of.
  assert (C : forall K w, (0 < K)%nat -> l = SFam (mk_fleaf (mkScope sc []) (g_in g) 1 (fun f c r => FCategorical K (w f c r))) ->
    query (sl_scope l) = sc /\ sleaf_fits (fun _ => DFin (map INR (seq 0 K))) l /\ match l with SFam l => common_support l | SSC _ _ _ _ _ => True end /\
    state_weights normal l /\ (match l with SFam a => forall f c r, (exists x y, fl_fam a f c r = FNormal x y) \/ (exists K lg, fl_fam a f c r = FCategorical K lg) | _ => True end)).
  { intros K w Hk ->. split; [reflexivity|]. split; [|split; [intros f c r _ a; reflexivity|split; [exact I|]]].
    - cbn [sleaf_fits fl_fam mk_fleaf]. intros f c r _ _ _. split; [cbn; now apply Nat.ltb_lt|left; reflexivity].
    - cbn [fl_fam mk_fleaf]. intros. right. eauto. }
  assert (Sg : forall p, (0 < g_states g)%nat -> l = SSC (mkScope sc []) (g_in g) 1 (g_states g) (fun f c r k => rand_uniform (g_vars g) (d_state d p f c r k)) ->
    query (sl_scope l) = sc /\ sleaf_fits (fun _ => DFin (map INR (seq 0 (g_states g)))) l /\ match l with SFam l => common_support l | SSC _ _ _ _ _ => True end /\
    state_weights normal l /\ (match l with SFam a => forall f c r, (exists x y, fl_fam a f c r = FNormal x y) \/ (exists K lg, fl_fam a f c r = FCategorical K lg) | _ => True end)).
  { intros p Hk ->. split; [reflexivity|]. split; [|split; [exact I|split; [|exact I]]].
    - cbn [sleaf_fits]. split; [assumption|reflexivity].
    - cbn [state_weights]. intros. apply HN. }
  destruct (g_layer g).
  - specialize (HK ltac:(discriminate)). destruct (g_signed g && g_signed_in g)%bool; [destruct L as (_ & p & L); exact (Sg p HK L)|destruct L as (w & L); exact (C _ w HK L)].
  - specialize (HK ltac:(discriminate)). destruct (g_signed g && g_signed_in g)%bool; [destruct L as (_ & p & L); exact (Sg p HK L)|destruct L as (w & L); exact (C _ w HK L)].
  - destruct L as (a & b & ->). split; [reflexivity|]. split; [|split; [intros f c r _ x; reflexivity|split; [exact I|]]].
    + cbn [sleaf_fits fl_fam mk_fleaf]. intros f c r _ _ _. split; [reflexivity|left; reflexivity].
    + cbn [fl_fam mk_fleaf]. intros. left. eauto.
  - specialize (HK ltac:(discriminate)). destruct (g_signed g && g_signed_in g)%bool; [destruct L as (_ & p & L); exact (Sg p HK L)|destruct L as (w & L); exact (C _ w HK L)].
Qed.

Lemma normal_zn w : normal w -> zero_or_normal w.
Proof. intros H. now right. Qed.

Lemma comp_component g d t force c : (g_layer g <> LGaussian -> (0 < g_states g)%nat) -> sum_draws zero_or_normal g d -> state_draws normal g d ->
  Forall (StronglySorted lt) (tree_leaves t) -> comp_of g d t force c -> component 1 (dom_of g) c.
Proof.
  intros HK HS HN ST H. pose proof (comp_leaves _ _ _ _ _ H) as L.
  assert (LF : forall l, In l (sleaves c) -> exists sc, In sc (tree_leaves t) /\ leaf_of g d sc l) by (rewrite Forall_forall in L; exact L).
  assert (NW : Forall (state_weights normal) (sleaves c)).
  { apply Forall_forall. intros l Hl. destruct (LF l Hl) as (sc & _ & K). apply (leaf_facts g d sc l HK K HN). }
  constructor.
  - destruct H as (root & _ & C & _). apply C.
  - apply Forall_forall. intros l Hl. destruct (LF l Hl) as (sc & Hs & K). destruct (leaf_facts g d sc l HK K HN) as (-> & _). rewrite Forall_forall in ST. auto.
  - apply Forall_forall. intros l Hl. destruct (LF l Hl) as (sc & Hs & K). apply (leaf_facts g d sc l HK K HN).
  - intros la lb Ha Hb _. destruct (LF la Ha) as (sa & _ & Ka), (LF lb Hb) as (sb & _ & Kb).
    destruct (leaf_facts g d sa la HK Ka HN) as (_ & _ & _ & _ & Fa), (leaf_facts g d sb lb HK Kb HN) as (_ & _ & _ & _ & Fb).
    destruct la as [a|]; [|exact I]. destruct lb as [b|]; [|exact I]. cbn [exact_leaves]. intros f ca cb r _ _ _ _.
    destruct (Fa f ca r) as [(x & y & ->)|(K & lg & ->)]; [exact I|exact I].
  - apply Forall_forall. intros l Hl. destruct (LF l Hl) as (sc & Hs & K). apply (leaf_facts g d sc l HK K HN).
  - split; [eapply comp_weights; eauto|]. eapply Forall_impl; [|exact NW]. intros [l|s ch rep K w]; [trivial|]. cbn [state_weights]. intros Q f c0 r k A B C D. apply normal_zn. auto.
  - unfold strong_root. destruct c; auto.
Qed.
