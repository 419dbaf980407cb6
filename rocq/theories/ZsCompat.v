(** Circuits built over the same region tree are compatible. *)
From Coq Require Import List Arith ZArith Bool Reals Lia Lra Sorted Permutation.
From Verif Require Import Base ScopeModel ScopeProofs CircuitModel CircuitSpec CircuitBasics CircuitEval CircuitProps MargProofs PruneTop LearnProofs
  LeafModel LeafSpec LeafTop SignedModel SignedSpec SocsExamples TripleModel ZsModel ZsSpec ZsTree ZsProofs.
Import ListNotations.
Local Open Scope R_scope.

Definition tfeat (t : tnode) : nat := match tkids t with [] => length (tscope t) | _ => 1%nat end.
Record hdr (vars : list nat) (F : nat) (m : smod) : Prop := {
  h_vars : forall v, In v (query (scope_of (skel m))) <-> In v vars; h_ev : evidence (scope_of (skel m)) = [];
  h_feat : sfeat m = F; h_rep : repetitions (out_shape (skel m)) = 1%nat }.
Lemma hdr_same vars F a b : hdr vars F a -> hdr vars F b -> same_header a b = true.
Proof.
  intros [A1 A2 A3 A4] [B1 B2 B3 B4]. unfold same_header. rewrite A3, B3, A4, B4, !Nat.eqb_refl, !andb_true_r. apply scope_eqb_spec. split.
  - intros v. rewrite A1, B1. reflexivity.
  - intros v. rewrite A2, B2. reflexivity.
Qed.

(** the leaves _make_leaf makes *)
Definition leaf_of (g : cfg) (d : draws) (sc : list nat) (l : sleaf) : Prop :=
  match g_layer g with
  | LGaussian => exists a p, l = SFam (mk_fleaf (mkScope sc []) (g_in g) 1 (fun f c r => FNormal (a f c r) (snd (d_normal d p f c r))))
  | _ => if (g_signed g && g_signed_in g)%bool
         then (0 < g_states g)%nat /\ exists p, l = SSC (mkScope sc []) (g_in g) 1 (g_states g) (fun f c r k => rand_uniform (g_vars g) (d_state d p f c r k))
         else exists lg, l = SFam (mk_fleaf (mkScope sc []) (g_in g) 1 (fun f c r => FCategorical (g_states g) (lg f c r)))
  end.

(** the circuits _instantiate_tree makes *)
Inductive of_tree (g : cfg) (d : draws) : tnode -> smod -> Prop :=
| of_leaf sc l : leaf_of g d sc l -> iok g (TN sc []) (SLeaf l) -> of_tree g d (TN sc []) (SLeaf l)
| of_node sc ch cs sc' m p :
    Forall2 (of_tree g d) ch cs -> (2 <= length ch)%nat -> hdr sc 1 m -> hdr sc 1 (SProduct (SCat false sc' cs)) -> hdr sc (nsum (map tfeat ch)) (SCat false sc' cs) ->
    iok g (TN sc ch) m ->
    (if g_signed g then m = SSigned (SProduct (SCat false sc' cs)) (g_sum g) 1 (fun f i o r => rand_uniform (g_vars g) (d_sum d p f i o r))
     else exists lg, m = SSum (SProduct (SCat false sc' cs)) (g_sum g) 1 lg) ->
    of_tree g d (TN sc ch) m.

Lemma of_tree_ind' g d (P : tnode -> smod -> Prop) :
  (forall sc l, leaf_of g d sc l -> iok g (TN sc []) (SLeaf l) -> P (TN sc []) (SLeaf l)) ->
  (forall sc ch cs sc' m p, Forall2 (of_tree g d) ch cs -> Forall2 P ch cs -> (2 <= length ch)%nat -> hdr sc 1 m -> hdr sc 1 (SProduct (SCat false sc' cs)) ->
    hdr sc (nsum (map tfeat ch)) (SCat false sc' cs) -> iok g (TN sc ch) m ->
    (if g_signed g then m = SSigned (SProduct (SCat false sc' cs)) (g_sum g) 1 (fun f i o r => rand_uniform (g_vars g) (d_sum d p f i o r))
     else exists lg, m = SSum (SProduct (SCat false sc' cs)) (g_sum g) 1 lg) -> P (TN sc ch) m) ->
  forall t m, of_tree g d t m -> P t m.
Proof.
  intros HL HN. fix IH 3. intros t m H. destruct H as [sc l A B|sc ch cs sc' m p A B C D E F G].
  - now apply HL.
  - apply (HN sc ch cs sc' m p); auto. clear - A IH. induction A as [|t c ch cs A1 A IHA]; constructor; [now apply IH|exact IHA].
Qed.

Lemma leaf_of_make g d p sc m : make_leaf g d p sc = Ok m -> exists l, m = SLeaf l /\ leaf_of g d sc l.
Proof.
  assert (G : forall l, smk_leaf l = Ok m -> m = SLeaf l /\ match l with SSC _ _ _ K _ => (0 < K)%nat | _ => True end).
  { intros l E. unfold smk_leaf in E. cbn [skel] in E. destruct (leaf_okb _); [|discriminate]. destruct l as [l|s c r [|K] w]; [|discriminate|].
    - split; [congruence|exact I].
    - split; [congruence|lia]. }
  intros H. unfold make_leaf, leaf_of in *. destruct (g_layer g).
  - destruct (g_signed g && g_signed_in g)%bool; apply G in H; destruct H as [-> HK]; eauto 6.
  - destruct (g_signed g && g_signed_in g)%bool; apply G in H; destruct H as [-> HK]; eauto 6.
  - apply G in H. destruct H as [-> _]. eexists. split; [reflexivity|]. exists (fun f c r => fst (d_normal d p f c r)), p. reflexivity.
  - destruct (g_signed g && g_signed_in g)%bool; apply G in H; destruct H as [-> HK]; eauto 6.
Qed.

Lemma iok_tfeat g t m : iok g t m -> sfeat m = tfeat t.
Proof. intros I. apply (io_feat _ _ _ I). Qed.

Lemma inst_of_tree g d : (1 <= g_sum g)%nat -> forall t p m, region_tree t -> NoDup (tscope t) -> instantiate g d p t = Ok m -> of_tree g d t m.
Proof.
  intros Hs. induction t as [sc ch IH] using tnode_ind'. intros p m RT ND H. pose proof (inst_inv g d Hs _ p m RT ND H) as IO.
  cbn [tscope] in ND. inversion RT as [sc' Hn|sc' ch' HL HP HF]; subst.
  - destruct (leaf_inv g d p sc m ND H) as (_ & E). apply leaf_of_make in E. destruct E as (l & -> & L). now constructor.
  - assert (ND' : NoDup (flat_map tscope ch)) by (eapply Permutation_NoDup; eauto). pose proof (nodup_child ch ND') as NC.
    assert (FI : forall cs, Forall2 (fun t m => exists p', instantiate g d p' t = Ok m) ch cs -> Forall2 (iok g) ch cs).
    { intros cs E. clear - E HF NC Hs. induction E as [|t c ch cs (p' & E1) E IHE]; constructor; inversion HF; inversion NC; subst; [eapply inst_inv; eauto|auto]. }
    destruct (node_inv g d p sc ch m HL HP Hs FI H) as (_ & cs & sc' & prod & F & -> & E & EC). pose proof (FI cs F) as I.
    assert (BC : Forall built (map skel cs)).
    { clear - I. induction I as [|t c ch cs I F IHF]; constructor; [apply (io_built _ _ _ I)|exact IHF]. }
    assert (B : built (skel (SCat false sc' cs))) by (cbn [skel]; eapply b_cat; eauto).
    pose proof (Forall2_len _ _ _ I) as L.
    assert (BP : built (skel (SProduct (SCat false sc' cs)))).
    { cbn [skel]. apply (b_product (map skel cs)); [exact BC|]. unfold mk_product. destruct cs as [|c0 [|c1 cs]]; cbn in L; try lia. cbn [map] in EC |- *. rewrite EC. reflexivity. }
    assert (U0 : uniform 1 (skel (SCat false sc' cs))).
    { cbn [skel]. apply uniform_cat. clear - I. induction I as [|t c ch cs I F IHF]; constructor; [apply (io_unif _ _ _ I)|exact IHF]. }
    assert (U : uniform 1 (skel (SProduct (SCat false sc' cs)))) by exact U0.
    destruct (make_sum_inv g _ _ _ m BP U Hs E) as (B' & U' & S' & F' & C' & R' & FM).
    pose proof (io_vars _ _ _ IO) as V. pose proof (io_ev _ _ _ IO) as EV. cbn [tscope] in V.
    apply (of_node g d sc ch cs sc' m p); auto.
    + clear - F IH HF NC. induction F as [|t c ch cs (p' & E1) F IHF]; constructor; inversion HF; inversion NC; inversion IH; subst; [eauto|auto].
    + constructor; auto.
    + rewrite S' in V, EV. constructor; auto. apply (rep_uniform _ U BP).
    + rewrite S' in V, EV. constructor; auto; [|apply (rep_uniform _ U0 B)].
      unfold sfeat. cbn [skel out_shape features]. f_equal. clear - I. induction I as [|t c ch cs I F IHF]; [reflexivity|]. cbn [map]. rewrite IHF. f_equal. exact (iok_tfeat _ _ _ I).
Qed.

(** *** leaves *)
Definition same_inputs (g h : cfg) : Prop := g_layer g = g_layer h /\ g_states g = g_states h.

Lemma slip_some g h d e sc la lb : same_inputs g h -> leaf_of g d sc la -> leaf_of h e sc lb -> forall f ca cb r, exists v, slip la lb f ca cb r = Some v.
Proof.
  intros (E1 & E2) A B f ca cb r. unfold leaf_of in A, B. rewrite <- E1, <- E2 in B.
  destruct (g_layer g);
    try (destruct (g_signed g && g_signed_in g)%bool, (h.(g_signed) && h.(g_signed_in))%bool;
      try (destruct A as (_ & pa & ->)); try (destruct A as (pa & ->)); try (destruct B as (_ & pb & ->)); try (destruct B as (pb & ->));
      cbn [slip fl_fam mk_fleaf lip]; rewrite Nat.eqb_refl; eauto).
  destruct A as (a1 & a2 & ->), B as (b1 & b2 & ->). cbn [slip fl_fam mk_fleaf lip]. eauto.
Qed.
Lemma slip_ok_of g h d e sc la lb : same_inputs g h -> leaf_of g d sc la -> leaf_of h e sc lb -> slip_ok la lb = true.
Proof.
  intros S A B. unfold slip_ok. apply allb_true. intros f _. apply allb_true. intros ca _. apply allb_true. intros cb _. apply allb_true. intros r _.
  destruct (slip_some g h d e sc la lb S A B f ca cb r) as (v & ->). reflexivity.
Qed.
Lemma cat_table_of g d sc l : leaf_of g d sc l -> g_layer g <> LGaussian -> forall f c r, exists w, cat_table l f c r = Some (g_states g, w).
Proof.
  intros A NG f c r. unfold leaf_of in A. destruct (g_layer g); [| |congruence|];
    (destruct (g_signed g && g_signed_in g)%bool; [destruct A as (_ & pa & ->)|destruct A as (pa & ->)]; cbn [cat_table fl_fam mk_fleaf]; eauto).
Qed.
Lemma stp_ok_of g h k d e u sc la lb lc : same_inputs g h -> same_inputs g k -> leaf_of g d sc la -> leaf_of h e sc lb -> leaf_of k u sc lc ->
  stp_ok la lb lc = true.
Proof.
  intros (E1 & E2) (E3 & E4) A B C. unfold stp_ok. apply allb_true. intros f _. apply allb_true. intros ca _. apply allb_true. intros cb _. apply allb_true. intros cc _. apply allb_true. intros r _.
  unfold stp. assert (g_layer g = LGaussian \/ g_layer g <> LGaussian) as [G|G] by (destruct (g_layer g); ((left; reflexivity) || (right; discriminate))).
  - unfold leaf_of in A, B, C. rewrite <- E1 in B. rewrite <- E3 in C. rewrite G in A, B, C.
    destruct A as (a1 & a2 & ->), B as (b1 & b2 & ->), C as (c1 & c2 & ->). reflexivity.
  - destruct (cat_table_of g d sc la A G f ca r) as (w1 & ->), (cat_table_of h e sc lb B ltac:(congruence) f cb r) as (w2 & ->), (cat_table_of k u sc lc C ltac:(congruence) f cc r) as (w3 & ->).
    rewrite <- E2, <- E4, Nat.eqb_refl. reflexivity.
Qed.

Lemma as_sum_of g (sgn : bool) c w m : (if sgn then m = SSigned c (g_sum g) 1 w else exists lg, m = SSum c (g_sum g) 1 lg) -> exists w', as_sum m = Some (c, w').
Proof. destruct sgn; [intros ->|intros (lg & ->)]; cbn [as_sum]; eauto. Qed.

Lemma ip_ok_of g h d e : same_inputs g h -> forall t a, of_tree g d t a -> forall b, of_tree h e t b -> ip_ok a b = true.
Proof.
  intros S. apply (of_tree_ind' g d (fun t a => forall b, of_tree h e t b -> ip_ok a b = true)).
  - intros sc l L I b Hb. inversion Hb as [sc' l' L' I'|? ? ? ? ? ? _ HL]; subst; [|cbn in HL; lia]. cbn [ip_ok].
    rewrite (slip_ok_of g h d e sc l l' S L L'), andb_true_r. apply (hdr_same sc (length sc)); constructor; solve [apply I|apply I'].
  - intros sc ch cs sc' m p FO IH HL Hm Hp Hc I FM b Hb. inversion Hb as [sc0 l' L' I'|sc0 ch0 ds sc'' b' p' FO' _ Hm' Hp' Hc' I' FM']; subst; [cbn in HL; lia|].
    destruct (as_sum_of h _ _ _ _ FM') as (w' & AS).
    assert (IPC : ip_ok (SProduct (SCat false sc' cs)) (SProduct (SCat false sc'' ds)) = true).
    { cbn [ip_ok]. rewrite (hdr_same _ _ _ _ Hp Hp'), (hdr_same _ _ _ _ Hc Hc'). cbn [andb Bool.eqb].
      assert (length cs = length ds) as -> by (now rewrite <- (Forall2_len _ _ _ FO), <- (Forall2_len _ _ _ FO')). rewrite Nat.eqb_refl. cbn [andb].
      apply forallb_forall. intros q Hq. clear - IH FO' Hq. revert ds FO' Hq. induction IH as [|t c ch cs H IH IHH]; intros ds FO' Hq; [destruct Hq|].
      inversion FO' as [|? y ? ds' F1 F2]; subst. cbn [map combine] in Hq. destruct Hq as [<-|Hq]; [exact (H _ F1)|]. exact (IHH _ F2 Hq). }
    pose proof (hdr_same _ _ _ _ Hm Hm') as HH. destruct (g_signed g); [subst m|destruct FM as (lg & ->)]; cbn [ip_ok] in HH |- *; rewrite HH, AS; exact IPC.
Qed.

Lemma tp_ok_of g h k d e u : same_inputs g h -> same_inputs g k -> forall t a, of_tree g d t a -> forall b c, of_tree h e t b -> of_tree k u t c -> tp_ok a b c = true.
Proof.
  intros S S'. apply (of_tree_ind' g d (fun t a => forall b c, of_tree h e t b -> of_tree k u t c -> tp_ok a b c = true)).
  - intros sc l L I b c Hb Hc. inversion Hb as [sc' l' L' I'|? ? ? ? ? ? _ HL]; subst; [|cbn in HL; lia].
    inversion Hc as [sc' l'' L'' I''|? ? ? ? ? ? _ HL]; subst; [|cbn in HL; lia]. cbn [tp_ok].
    rewrite (stp_ok_of g h k d e u sc l l' l'' S S' L L' L''), andb_true_r, (hdr_same sc (length sc) (SLeaf l) (SLeaf l')); [apply (hdr_same sc (length sc))|..]; constructor; solve [apply I|apply I'|apply I''].
  - intros sc ch cs sc' m p FO IH HL Hm Hp Hc I FM b c Hb Hcc.
    inversion Hb as [sc0 l' L' I'|sc0 ch0 ds sc'' b' p' FO' _ Hm' Hp' Hc' I' FM']; subst; [cbn in HL; lia|].
    inversion Hcc as [sc0 l' L' I''|sc0 ch0 es sc3 c' p'' FO'' _ Hm'' Hp'' Hc'' I'' FM'']; subst; [cbn in HL; lia|].
    destruct (as_sum_of h _ _ _ _ FM') as (w' & AS), (as_sum_of k _ _ _ _ FM'') as (w'' & AS').
    assert (IPC : tp_ok (SProduct (SCat false sc' cs)) (SProduct (SCat false sc'' ds)) (SProduct (SCat false sc3 es)) = true).
    { cbn [tp_ok]. rewrite (hdr_same _ _ _ _ Hp Hp'), (hdr_same _ _ _ _ Hc Hc'), (hdr_same _ _ _ _ Hp Hp''), (hdr_same _ _ _ _ Hc Hc''). cbn [andb Bool.eqb].
      assert (length cs = length ds) as E1 by (now rewrite <- (Forall2_len _ _ _ FO), <- (Forall2_len _ _ _ FO')).
      assert (length cs = length es) as E2 by (now rewrite <- (Forall2_len _ _ _ FO), <- (Forall2_len _ _ _ FO'')).
      rewrite <- E1, <- E2, Nat.eqb_refl. cbn [andb].
      apply forallb_forall. intros q Hq. clear - IH FO' FO'' Hq. revert ds es FO' FO'' Hq. induction IH as [|t c ch cs H IH IHH]; intros ds es FO' FO'' Hq; [destruct Hq|].
      inversion FO' as [|? y ? ds' F1 F2]; inversion FO'' as [|? z ? es' F3 F4]; subst. cbn [map combine] in Hq. destruct Hq as [<-|Hq]; [exact (H _ _ F1 F3)|]. exact (IHH _ _ F2 F4 Hq). }
    pose proof (hdr_same _ _ _ _ Hm Hm') as HH. pose proof (hdr_same _ _ _ _ Hm Hm'') as HH'.
    destruct (g_signed g); [subst m|destruct FM as (lg & ->)]; cbn [tp_ok] in HH, HH' |- *; rewrite HH, HH', AS, AS'; exact IPC.
Qed.
