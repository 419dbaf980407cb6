(** The components of SOSModel and ExpSOSModel. *)
From Coq Require Import List Arith ZArith Bool Reals Lia Lra Sorted Permutation.
From Verif Require Import Base ScopeModel ScopeProofs CircuitModel CircuitSpec CircuitBasics CircuitEval CircuitProps MargProofs PruneTop LearnProofs
  Integral LeafModel LeafSpec LeafTop SignedModel SignedSpec SignedProofs SocsExamples TripleModel TripleSpec ExpTop ZsModel ZsSpec ZsTree ZsProofs ZsCompat.
Import ListNotations.
Local Open Scope R_scope.

(** *** finalize *)
Record cok (vars : list nat) (c : smod) : Prop := {
  ck_built : constructed 1 c; ck_shape : out_shape (skel c) = mkShape 1 1 1;
  ck_vars : forall v, In v (query (scope_of (skel c))) <-> In v vars; ck_ev : evidence (scope_of (skel c)) = [] }.

Definition scalar_in (root : smod) : smod := if Nat.eqb (sfeat root) 1 then root else SProduct root.
Lemma scalar_in_ok g t root : iok g t root -> built (skel (scalar_in root)) /\ uniform 1 (skel (scalar_in root)) /\ sfeat (scalar_in root) = 1%nat /\
  schan (scalar_in root) = schan root /\ scope_of (skel (scalar_in root)) = scope_of (skel root) /\ repetitions (out_shape (skel (scalar_in root))) = 1%nat.
Proof.
  intros I. unfold scalar_in. destruct (Nat.eqb_spec (sfeat root) 1) as [E|E].
  - split; [apply I|]. split; [apply I|]. split; [exact E|]. split; [reflexivity|]. split; [reflexivity|apply I].
  - assert (built (skel (SProduct root))) as B.
    { cbn [skel]. apply (b_product [skel root]); [constructor; [apply I|constructor]|reflexivity]. }
    split; [exact B|]. split; [apply I|]. split; [reflexivity|]. split; [reflexivity|]. split; [reflexivity|apply I].
Qed.

Lemma shape_eta s F C P : features s = F -> channels s = C -> repetitions s = P -> s = mkShape F C P.
Proof. destruct s. cbn. congruence. Qed.

Lemma finalize_inv g d t root force c : iok g t root -> finalize g d root force = Ok c ->
  cok (tscope t) c /\
  (if (negb (Nat.eqb (schan root) 1) || force)%bool
   then make_sum g (d_top d) (scalar_in root) 1 = Ok c else c = scalar_in root).
Proof.
  intros I H. destruct (scalar_in_ok g t root I) as (B & U & F & C & S & P). unfold finalize in H. fold (scalar_in root) in H. cbn zeta in H. rewrite C in H.
  destruct (negb (Nat.eqb (schan root) 1) || force)%bool eqn:EB.
  - destruct (make_sum g (d_top d) (scalar_in root) 1) as [out|] eqn:E; [|discriminate]. cbn [bind] in H. destruct (scalar_shape out) eqn:SS; [|discriminate]. injection H as <-.
    split; [|first [exact E|reflexivity]]. destruct (make_sum_inv g _ _ _ _ B U (le_n 1) E) as (B' & U' & S' & _). constructor; [split; assumption|now apply scalar_iff| |].
    + rewrite S', S. apply (io_vars _ _ _ I).
    + rewrite S', S. apply (io_ev _ _ _ I).
  - cbn [bind] in H. destruct (scalar_shape (scalar_in root)) eqn:SS; [|discriminate]. injection H as <-. split; [|reflexivity].
    constructor; [split; assumption|now apply scalar_iff| |]; rewrite S; apply I.
Qed.
Lemma finalize_all g d t root force : unit_draws d -> iok g t root -> exists c, finalize g d root force = Ok c.
Proof.
  intros (_ & UD & _) I. destruct (scalar_in_ok g t root I) as (B & U & F & C & S & P). unfold finalize. fold (scalar_in root). cbn zeta. rewrite C.
  destruct (negb (Nat.eqb (schan root) 1) || force)%bool eqn:EB.
  - destruct (make_sum_all g (d_top d) (scalar_in root) 1 B (le_n 1) UD) as (m & E). rewrite E. cbn [bind].
    destruct (make_sum_inv g _ _ _ _ B U (le_n 1) E) as (B' & U' & S' & F' & C' & P' & _).
    assert (scalar_shape m = true) as ->; [|eauto]. apply scalar_iff. apply shape_eta; [rewrite <- F; exact F'|exact C'|exact P'].
  - cbn [bind]. assert (scalar_shape (scalar_in root) = true) as ->; [|eauto]. apply scalar_iff. apply shape_eta; [exact F| |exact P].
    apply orb_false_iff in EB. destruct EB as [EB _]. apply negb_false_iff, Nat.eqb_eq in EB. unfold schan in C, EB. congruence.
Qed.

(** *** compatibility of components over one tree *)
Lemma scalar_in_hdr g d t root : of_tree g d t root -> iok g t root -> hdr (tscope t) (tfeat t) root /\ hdr (tscope t) 1 (scalar_in root).
Proof.
  intros _ I. destruct (scalar_in_ok g t root I) as (B & U & F & C & S & P). split; constructor; try apply I; auto; rewrite S; apply I.
Qed.
Lemma of_tree_iok g d t m : of_tree g d t m -> iok g t m.
Proof. intros H. inversion H; subst; assumption. Qed.

Definition has_top (g : cfg) (t : tnode) (force : bool) : bool := (negb (Nat.eqb (match tkids t with [] => g_in g | _ => g_sum g end) 1) || force)%bool.
(** a finished component *)
Definition comp_of (g : cfg) (d : draws) (t : tnode) (force : bool) (c : smod) : Prop :=
  exists root, of_tree g d t root /\ cok (tscope t) c /\
    if has_top g t force then make_sum g (d_top d) (scalar_in root) 1 = Ok c else c = scalar_in root.

Lemma build_component_inv g d t force c : (1 <= g_sum g)%nat -> region_tree t -> NoDup (tscope t) -> build_component t g d force = Ok c -> comp_of g d t force c.
Proof.
  intros Hs RT ND H. unfold build_component in H. destruct (instantiate g d [] t) as [root|] eqn:E; [|discriminate]. cbn [bind] in H.
  apply inst_of_tree in E; auto. pose proof (of_tree_iok _ _ _ _ E) as I. destruct (finalize_inv g d t root force c I H) as (C & F).
  rewrite (io_chan _ _ _ I) in F. exists root. auto.
Qed.
Lemma build_component_iff g d t force : unit_draws d -> states_ok g -> (1 <= g_in g)%nat -> (1 <= g_sum g)%nat -> region_tree t -> NoDup (tscope t) ->
  ((exists c, build_component t g d force = Ok c) <-> g_in g = g_sum g \/ even_tree t).
Proof.
  intros UD K Hi Hs RT ND. unfold build_component. split.
  - intros (c & H). destruct (instantiate g d [] t) as [root|] eqn:E; [|discriminate]. eapply inst_needs; eauto.
  - intros HE. destruct (inst_all g d UD K Hi Hs t [] RT ND HE) as (root & E). rewrite E. cbn [bind]. apply (finalize_all g d t); [assumption|]. eapply inst_inv; eauto.
Qed.

Lemma top_cases g rnd c m : built (skel c) -> uniform 1 (skel c) -> make_sum g rnd c 1 = Ok m -> exists w, as_sum m = Some (c, w) /\
  (m = SSigned c 1 1 w \/ exists lg, m = SSum c 1 1 lg).
Proof.
  intros B U H. destruct (make_sum_inv g rnd c 1 m B U (le_n 1) H) as (_ & _ & _ & _ & _ & _ & F). destruct (g_signed g); [subst m|destruct F as (lg & ->)]; cbn [as_sum]; eauto.
Qed.

Lemma cok_hdr vars c : cok vars c -> hdr vars 1 c.
Proof. intros [B S V E]. constructor; auto; unfold sfeat; now rewrite S. Qed.

Lemma scalar_in_ip a b : (sfeat a = sfeat b)%nat -> ip_ok a b = true -> same_header (SProduct a) (SProduct b) = true -> ip_ok (scalar_in a) (scalar_in b) = true.
Proof.
  intros E H HH. unfold scalar_in. rewrite <- E. destruct (Nat.eqb (sfeat a) 1); [exact H|]. cbn [ip_ok]. rewrite HH. exact H.
Qed.
Lemma scalar_in_tp a b c : (sfeat a = sfeat b)%nat -> (sfeat a = sfeat c)%nat -> tp_ok a b c = true ->
  same_header (SProduct a) (SProduct b) = true -> same_header (SProduct a) (SProduct c) = true -> tp_ok (scalar_in a) (scalar_in b) (scalar_in c) = true.
Proof.
  intros E E' H HH HH'. unfold scalar_in. rewrite <- E, <- E'. destruct (Nat.eqb (sfeat a) 1); [exact H|]. cbn [tp_ok]. rewrite HH, HH'. exact H.
Qed.
Lemma product_header vars F a b : hdr vars F a -> hdr vars F b -> same_header (SProduct a) (SProduct b) = true.
Proof. intros [A1 A2 A3 A4] [B1 B2 B3 B4]. apply (hdr_same vars 1); constructor; auto. Qed.

Lemma comp_ip g h d e t force a b : same_inputs g h -> has_top g t force = has_top h t force -> comp_of g d t force a -> comp_of h e t force b -> ip_ok a b = true.
Proof.
  intros S T (ra & Oa & Ca & Fa) (rb & Ob & Cb & Fb). pose proof (of_tree_iok _ _ _ _ Oa) as Ia. pose proof (of_tree_iok _ _ _ _ Ob) as Ib.
  destruct (scalar_in_hdr g d t ra Oa Ia) as (Ha & _), (scalar_in_hdr h e t rb Ob Ib) as (Hb & _).
  assert (IP : ip_ok (scalar_in ra) (scalar_in rb) = true).
  { apply scalar_in_ip; [now rewrite (h_feat _ _ _ Ha), (h_feat _ _ _ Hb)|eapply ip_ok_of; eauto|eapply product_header; eauto]. }
  rewrite <- T in Fb. destruct (has_top g t force).
  - destruct (scalar_in_ok g t ra Ia) as (Ba & Ua & _), (scalar_in_ok h t rb Ib) as (Bb & Ub & _).
    destruct (top_cases g _ _ _ Ba Ua Fa) as (w & _ & Ka), (top_cases h _ _ _ Bb Ub Fb) as (w' & AS & _).
    pose proof (hdr_same _ _ _ _ (cok_hdr _ _ Ca) (cok_hdr _ _ Cb)) as HH. destruct Ka as [->|(lg & ->)]; cbn [ip_ok] in HH |- *; rewrite HH, AS; exact IP.
  - now subst.
Qed.
Lemma comp_tp g h k d e u t force a b c : same_inputs g h -> same_inputs g k -> has_top g t force = has_top h t force -> has_top g t force = has_top k t force ->
  comp_of g d t force a -> comp_of h e t force b -> comp_of k u t force c -> tp_ok a b c = true.
Proof.
  intros S S' T T' (ra & Oa & Ca & Fa) (rb & Ob & Cb & Fb) (rc & Oc & Cc & Fc).
  pose proof (of_tree_iok _ _ _ _ Oa) as Ia. pose proof (of_tree_iok _ _ _ _ Ob) as Ib. pose proof (of_tree_iok _ _ _ _ Oc) as Ic.
  destruct (scalar_in_hdr g d t ra Oa Ia) as (Ha & _), (scalar_in_hdr h e t rb Ob Ib) as (Hb & _), (scalar_in_hdr k u t rc Oc Ic) as (Hc & _).
  assert (IP : tp_ok (scalar_in ra) (scalar_in rb) (scalar_in rc) = true).
  { apply scalar_in_tp; [now rewrite (h_feat _ _ _ Ha), (h_feat _ _ _ Hb)|now rewrite (h_feat _ _ _ Ha), (h_feat _ _ _ Hc)| |eapply product_header; eauto|eapply product_header; eauto].
    exact (tp_ok_of g h k d e u S S' t ra Oa rb rc Ob Oc). }
  rewrite <- T in Fb. rewrite <- T' in Fc. destruct (has_top g t force).
  - destruct (scalar_in_ok g t ra Ia) as (Ba & Ua & _), (scalar_in_ok h t rb Ib) as (Bb & Ub & _), (scalar_in_ok k t rc Ic) as (Bc & Uc & _).
    destruct (top_cases g _ _ _ Ba Ua Fa) as (w & _ & Ka), (top_cases h _ _ _ Bb Ub Fb) as (w' & AS & _), (top_cases k _ _ _ Bc Uc Fc) as (w'' & AS' & _).
    pose proof (hdr_same _ _ _ _ (cok_hdr _ _ Ca) (cok_hdr _ _ Cb)) as HH. pose proof (hdr_same _ _ _ _ (cok_hdr _ _ Ca) (cok_hdr _ _ Cc)) as HH'.
    destruct Ka as [->|(lg & ->)]; cbn [tp_ok] in HH, HH' |- *; rewrite HH, HH', AS, AS'; exact IP.
  - now subst.
Qed.
