(** C260-C264: structural compatibility of components (check_compatible_components). *)
From Coq Require Import List Arith Bool Reals Lia.
From Verif Require Import Base ScopeModel ScopeProofs CircuitModel LeafModel LeafTop SignedModel SignedSpec SignedProofs CompatModel CompatSpec CompatProofs.
Import ListNotations.

(** C260: the check accepts exactly if every component looks like the first at every
    path through Cat, Sum, SignedSum and Product modules - same class, scope, shape, Cat
    dimension, number of states, tree -, however submodules are shared *)
Theorem C260_accepts_iff : forall c0 cs, (forall c, In c cs -> ids_ok c0 c) ->
  check_compatible_components (c0 :: cs) = Ok tt <-> forall c, In c cs -> same_skeleton c0 c.
Proof.
  intros c0 cs H. cbn [check_compatible_components].
  destruct (forallb _ cs) eqn:F.
  - split; [intros _|reflexivity]. intros c Hc. rewrite forallb_forall in F. specialize (F c Hc). apply check_iff; [now apply H|].
    destruct (check_pair c0 c []) as [v|]; [now exists v|discriminate].
  - split; [discriminate|]. intros K. exfalso. rewrite <- not_true_iff_false in F. apply F. apply forallb_forall. intros c Hc.
    destruct (proj2 (check_iff c0 c (H c Hc)) (K c Hc)) as (v & ->). reflexivity.
Qed.
Print Assumptions C260_accepts_iff.

(** C261: comparing with the first component is enough: in an accepted list any two
    components look alike; a list of fewer than two is always accepted *)
Theorem C261_pairwise : forall c0 cs, (forall c, In c cs -> ids_ok c0 c) -> check_compatible_components (c0 :: cs) = Ok tt ->
  forall a b, In a (c0 :: cs) -> In b (c0 :: cs) -> same_skeleton a b.
Proof.
  intros c0 cs H E a b Ha Hb. pose proof (proj1 (C260_accepts_iff c0 cs H) E) as E'.
  assert (forall x, In x (c0 :: cs) -> same_skeleton c0 x) as K by (intros x [<-|Hx]; [apply skeleton_refl|now apply E']).
  apply (skeleton_trans a c0 b); [apply skeleton_sym|]; now apply K.
Qed.
Print Assumptions C261_pairwise.
Theorem C261_short : forall c, check_compatible_components [] = Ok tt /\ check_compatible_components [c] = Ok tt.
Proof. intros c. split; reflexivity. Qed.
Print Assumptions C261_short.

(** C262: components the check accepts have an inner product, if they concatenate only
    along features and their leaves are of one class each, with a closed-form inner
    product not depending on further parameters *)
Fixpoint feature_cats (m : smod) : Prop :=
  match m with
  | SLeaf _ => True
  | SSum c _ _ _ | SSigned c _ _ _ | SProduct c => feature_cats c
  | SCat d2 _ cs => d2 = false /\ (fix go (l : list smod) : Prop := match l with [] => True | c :: r => feature_cats c /\ go r end) cs
  end.
Definition one_class (l : sleaf) : Prop :=
  match l with
  | SFam l => (forall f c r, (f < length (query (fl_scope l)))%nat -> (c < fl_ch l)%nat -> (r < fl_rep l)%nat -> kind_of_fam (fl_fam l f c r) = kind_of_fam (fl_fam l 0 0 0)) /\
              match fl_fam l 0 0 0 with FNegBin _ _ | FHyper _ _ _ => False | _ => True end
  | SSC _ _ _ _ _ => True
  end.
Lemma fc_cat d2 sc cs : feature_cats (SCat d2 sc cs) <-> d2 = false /\ Forall feature_cats cs.
Proof.
  cbn. split; intros [H K]; (split; [exact H|]); revert K; clear; induction cs as [|c cs IH]; intros K.
  - constructor.
  - constructor; [apply K|apply IH, K].
  - exact I.
  - inversion K as [|? ? K1 K2]; subst. split; [exact K1|apply IH, K2].
Qed.
Lemma view_header la lb a b : alike (view la a) (view lb b) -> same_header a b = true.
Proof.
  intros (_ & S1 & S2 & E). unfold same_header. rewrite !andb_true_iff, !Nat.eqb_eq. unfold sfeat.
  assert (forall lab m, cscope (view lab m) = scope_of (skel m) /\ cshape (view lab m) = out_shape (skel m)) as V by (intros lab [| | | |]; split; reflexivity).
  destruct (V la a) as [A1 A2], (V lb b) as [B1 B2]. rewrite A1, B1 in *. rewrite A2, B2 in E. rewrite E. repeat split; auto. apply scope_eqb_spec. now split.
Qed.
Lemma lip_class a b : kind_of_fam a = kind_of_fam b -> match a with FNegBin _ _ | FHyper _ _ _ => False | _ => True end -> exists v, lip a b = Some v.
Proof.
  intros E H. destruct a, b; cbn [kind_of_fam lip] in *; try discriminate; try destruct H; try (eexists; reflexivity).
  injection E as ->. rewrite Nat.eqb_refl. eauto.
Qed.
Lemma allb_intro n f : (forall i, (i < n)%nat -> f i = true) -> allb n f = true.
Proof. intros H. unfold allb. apply forallb_forall. intros i Hi. apply in_seq in Hi. apply H. lia. Qed.

Fixpoint views (lab : list nat -> nat) (i : nat) (l : list smod) : list cmod :=
  match l with [] => [] | c :: r => view (fun p => lab (i :: p)) c :: views lab (S i) r end.
Lemma view_cat lab d2 sc cs : cins (view lab (SCat d2 sc cs)) = views lab 0 cs.
Proof. cbn [view cins]. generalize 0%nat as i. induction cs as [|c cs IH]; intros i; [reflexivity|]. cbn [views]. now rewrite IH. Qed.

Lemma compat_ip a : forall la lb b, same_skeleton (view la a) (view lb b) -> feature_cats a ->
  Forall one_class (sleaves a) -> Forall one_class (sleaves b) -> ip_ok a b = true.
Proof.
  assert (H0 : forall la lb a b, same_skeleton (view la a) (view lb b) -> same_header a b = true) by (intros la lb x y H; eapply view_header; exact (H [])).
  induction a as [l|c co rr lg IH|c co rr w IH|d2 sc cs IH|c IH] using smod_ind'; intros la lb b H FC OA OB; pose proof (H0 _ _ _ _ H) as HD;
    pose proof H as H'; apply skeleton_step in H'; destruct H' as [AL F]; destruct AL as (EK & _ & S2 & ES).
  - cbn [ip_ok]. rewrite HD. cbn [andb].
    destruct b as [l'|? ? ? ?|? ? ? ?|? ? ?|?]; cbn [view ckind] in EK; try (exfalso; destruct l as [l|]; [cbn in EK; destruct (fl_fam l 0 0 0); discriminate|discriminate]).
    unfold same_header in HD. rewrite !andb_true_iff, !Nat.eqb_eq in HD. destruct HD as [[_ HF] HR]. unfold sfeat in HF. cbn in HF, HR.
    apply Forall_inv in OA, OB. unfold slip_ok. apply allb_intro. intros f Hf. apply allb_intro. intros ca Hca. apply allb_intro. intros cb Hcb. apply allb_intro. intros r Hr.
    destruct l as [l|s n m K w], l' as [l'|s' n' m' K' w']; cbn [kind_of_leaf slip] in *.
    + destruct OA as [OA XA], OB as [OB XB]. destruct (lip_class (fl_fam l f ca r) (fl_fam l' f cb r)) as (v & ->); [| |reflexivity].
      * rewrite OA, OB; auto; cbn in *; lia.
      * specialize (OA f ca r Hf Hca Hr). destruct (fl_fam l f ca r), (fl_fam l 0 0 0); cbn in OA; try discriminate; auto.
    + exfalso. destruct (fl_fam l 0 0 0); discriminate.
    + exfalso. destruct (fl_fam l' 0 0 0); discriminate.
    + injection EK as ->. now rewrite Nat.eqb_refl.
  - destruct b as [[l'|]|d co' rr' lg'|? ? ? ?|? ? ?|?]; cbn [view ckind kind_of_leaf] in EK; try discriminate; [exfalso; destruct (fl_fam l' 0 0 0); discriminate|].
    cbn [ip_ok as_sum]. rewrite HD. cbn [andb]. inversion F as [|? ? ? ? F1 F2]; subst. eapply IH; eauto.
  - destruct b as [[l'|]|? ? ? ?|d co' rr' w'|? ? ?|?]; cbn [view ckind kind_of_leaf] in EK; try discriminate; [exfalso; destruct (fl_fam l' 0 0 0); discriminate|].
    cbn [ip_ok as_sum]. rewrite HD. cbn [andb]. inversion F as [|? ? ? ? F1 F2]; subst. eapply IH; eauto.
  - destruct b as [[l'|]|? ? ? ?|? ? ? ?|d2' sc' ds|?]; cbn [view ckind kind_of_leaf] in EK; try discriminate; [exfalso; destruct (fl_fam l' 0 0 0); discriminate|].
    apply fc_cat in FC. destruct FC as [-> FC]. destruct d2'; [discriminate|]. cbn [ip_ok]. rewrite HD. cbn [andb Bool.eqb].
    change (Forall2 same_skeleton (cins (view la (SCat false sc cs))) (cins (view lb (SCat false sc' ds)))) in F. rewrite !view_cat in F.
    apply Forall_leaves_cat in OA, OB. clear - IH F FC OA OB. revert F IH FC OA OB. generalize 0%nat. revert ds. induction cs as [|c cs IHc]; intros [|d ds] i F IH FC OA OB; try (now inversion F).
    cbn [views] in F. inversion F as [|? ? ? ? F1 F2]; inversion IH; inversion FC; inversion OA; inversion OB; subst.
      destruct (andb_prop _ _ (IHc ds (S i) F2 ltac:(assumption) ltac:(assumption) ltac:(assumption) ltac:(assumption))) as [L1 L2].
      cbn [length map combine forallb fst snd]. cbn [Nat.eqb]. rewrite L1, L2. cbn [andb]. rewrite andb_true_r. eauto.
  - destruct b as [[l'|]|? ? ? ?|? ? ? ?|? ? ?|d]; cbn [view ckind kind_of_leaf] in EK; try discriminate; [exfalso; destruct (fl_fam l' 0 0 0); discriminate|].
    cbn [ip_ok]. rewrite HD. cbn [andb]. inversion F as [|? ? ? ? F1 F2]; subst. eapply IH; eauto.
Qed.
Theorem C262_inner_product : forall la lb a b, ids_ok (view la a) (view lb b) ->
  check_compatible_components [view la a; view lb b] = Ok tt ->
  feature_cats a -> Forall one_class (sleaves a) -> Forall one_class (sleaves b) ->
  exists k, inner_product_matrix a b = Ok k.
Proof.
  intros la lb a b IDS E FC OA OB. pose proof (proj1 (C260_accepts_iff (view la a) [view lb b] ltac:(intros c [<-|[]]; exact IDS)) E) as E'.
  unfold inner_product_matrix. rewrite (compat_ip a la lb b); auto; [eauto|]. apply E'. now left.
Qed.
Print Assumptions C262_inner_product.
Lemma below_inv m d : below m d -> d = m \/ exists c, In c (cins m) /\ below c d.
Proof. intros H. inversion H; subst; eauto. Qed.
Ltac belows := repeat match goal with
  | H : False |- _ => destruct H
  | H : ?a = ?b |- _ => is_var b; first [subst b | fail]
  | H : _ = _ \/ _ |- _ => destruct H as [H|H]
  | H : In _ _ |- _ => cbn in H
  | H : below _ _ |- _ => let c := fresh in let K := fresh in apply below_inv in H; destruct H as [H|(c & K & H)]; [subst|]
  end.

(** examples *)
From Verif Require Import SocsExamples.
Local Open Scope R_scope.
Definition unifM : smod := SSum (SProduct (cat2 [0; 1]%nat 2 half2)) 1 1 (fun _ _ _ _ => 0).
Example C262_nonvacuous : ids_ok (view (@length nat) compM) (view (@length nat) unifM) /\
  check_compatible_components [view (@length nat) compM; view (@length nat) unifM] = Ok tt /\
  check_compatible_components [view (@length nat) compM; view (@length nat) compS] = Err /\
  feature_cats compM /\ Forall one_class (sleaves compM) /\ Forall one_class (sleaves unifM).
Proof.
  assert (forall m, m = compM \/ m = unifM -> forall x y, below (view (@length nat) m) x -> below (view (@length nat) m) y -> cid x = cid y -> x = y) as H.
  { intros m [->| ->] x y Hx Hy E; belows; try reflexivity; discriminate E. }
  split; [split; apply H; auto|]. split; [reflexivity|]. split; [reflexivity|]. split; [exact I|].
  split; (constructor; [|constructor]); (split; [reflexivity|exact I]).
Qed.

(** C263: acceptance does not mean the components have an inner product: Hypergeometric
    leaves with different population sizes, and a Cat along channels of leaves of
    different classes, are accepted although inner_product_matrix raises *)
Definition hyperL (N : nat) : smod := SLeaf (SFam (mk_fleaf (mkScope [0]%nat []) 1 1 (fun _ _ _ => FHyper 1 N 1))).
Definition mixedC : smod :=
  SCat true (mkScope [0]%nat []) [SLeaf (SFam (mk_fleaf (mkScope [0]%nat []) 1 1 (fun _ _ _ => FNormal 0 0)));
                      SLeaf (SFam (mk_fleaf (mkScope [0]%nat []) 1 1 (fun _ _ _ => FLaplace 0 0)))].
Definition lab1 (p : list nat) : nat := match p with [] => 0 | i :: _ => S i end.
Theorem C263_no_inner_product_refuted :
  (exists la lb a b, ids_ok (view la a) (view lb b) /\ check_compatible_components [view la a; view lb b] = Ok tt /\
     feature_cats a /\ inner_product_matrix a a <> Err /\ inner_product_matrix b b <> Err /\ inner_product_matrix a b = Err) /\
  (exists la a, ids_ok (view la a) (view la a) /\ check_compatible_components [view la a; view la a] = Ok tt /\ inner_product_matrix a a = Err).
Proof.
  split.
  - exists lab1, lab1, (hyperL 2), (hyperL 3). split; [|repeat split; try reflexivity; discriminate].
    split; intros x y Hx Hy _; apply below_inv in Hx, Hy; destruct Hx as [->|(c & [] & _)], Hy as [->|(d & [] & _)]; reflexivity.
  - exists lab1, mixedC. split; [|split; reflexivity].
    split; intros x y Hx Hy E; apply below_inv in Hx, Hy; destruct Hx as [->|(c & [<-|[<-|[]]] & Hx)], Hy as [->|(d & [<-|[<-|[]]] & Hy)]; auto;
      repeat match goal with K : below _ _ |- _ => apply below_inv in K; destruct K as [->|(? & [] & _)] end; auto; discriminate E.
Qed.
Print Assumptions C263_no_inner_product_refuted.

(** C264: inputs of other module types (an ElementwiseProduct, say) are not compared:
    accepted modules can split the same variables differently *)
Definition leafm (i v : nat) : cmod := CM i (KLeaf 9) (mkScope [v] []) (mkShape 1 1 1) [].
Definition pairm (i : nat) (vs : list nat) (l : list cmod) : cmod := CM i KProduct (mkScope vs []) (mkShape 1 1 1) [CM (S i) (KCat 1) (mkScope vs []) (mkShape 2 1 1) l].
Definition elem (l : list cmod) : cmod := CM 0 (KOther 0) (mkScope [0; 1; 2; 3]%nat []) (mkShape 2 1 1) l.
Definition splitA : cmod := elem [pairm 1 [0; 1]%nat [leafm 5 0; leafm 6 1]; pairm 3 [2; 3]%nat [leafm 7 2; leafm 8 3]].
Definition splitB : cmod := elem [pairm 1 [0; 2]%nat [leafm 5 0; leafm 6 2]; pairm 3 [1; 3]%nat [leafm 7 1; leafm 8 3]].
Theorem C264_other_modules_refuted : exists a b, ids_ok a b /\ check_compatible_components [a; b] = Ok tt /\
  length (cins a) = length (cins b) /\ exists i, ~ (forall v, In v (query (cscope (nth i (cins a) a))) <-> In v (query (cscope (nth i (cins b) b)))).
Proof.
  exists splitA, splitB. split.
  - split; intros x y Hx Hy E; belows; try reflexivity; discriminate E.
  - split; [reflexivity|]. split; [reflexivity|]. exists 0%nat. intros H. specialize (H 1%nat). cbn in H. lia.
Qed.
Print Assumptions C264_other_modules_refuted.
