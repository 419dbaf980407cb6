(** topk_mst enumerates the trees class by class. *)
From Coq Require Import List Arith Bool Reals Lia Lra Permutation Sorted.
From Verif Require Import Base PromModel PromGraph PromParts CltSpec CltPrim MstModel MstSpec MstUf MstKruskal MstTop.
Import ListNotations.
Local Open Scope nat_scope.

(** *** the heap *)
Lemma hlt_total a b : hlt a b = true -> (h_total a <= h_total b)%R.
Proof. unfold hlt. destruct (Rlt_dec _ _); [lra|]. destruct (Rlt_dec _ _); [discriminate|lra]. Qed.
Lemma hlt_false a b : hlt a b = false -> (h_total b <= h_total a)%R.
Proof. unfold hlt. destruct (Rlt_dec _ _); [discriminate|]. lra. Qed.
Lemma pop_min_spec h : match pop_min h with
  | None => h = []
  | Some (a, r) => Permutation h (a :: r) /\ forall b, In b r -> (h_total a <= h_total b)%R
  end.
Proof.
  induction h as [|a r IH]; [reflexivity|]. cbn [pop_min]. destruct (pop_min r) as [[b r']|] eqn:E.
  - destruct IH as [P H]. destruct (hlt b a) eqn:L.
    + split; [rewrite P; apply perm_swap|]. intros x [<-|Hx]; [now apply hlt_total|now apply H].
    + split; [reflexivity|]. apply hlt_false in L. intros x Hx. apply (Permutation_in _ P) in Hx. destruct Hx as [<-|Hx]; [exact L|]. specialize (H x Hx). lra.
  - subst r. split; [reflexivity|intros b []].
Qed.

(** *** pairwise exclusion *)
Fixpoint pairwise {A} (D : A -> A -> Prop) (l : list A) : Prop :=
  match l with [] => True | a :: r => Forall (D a) r /\ pairwise D r end.
Lemma pairwise_perm {A} (D : A -> A -> Prop) : (forall a b, D a b -> D b a) -> forall l l', Permutation l l' -> pairwise D l -> pairwise D l'.
Proof.
  intros HS. induction 1 as [|x l l' P IH|x y l|l1 l2 l3 P1 IH1 P2 IH2]; cbn [pairwise]; auto.
  - intros [H1 H2]. split; [|auto]. rewrite Forall_forall in *. intros z Hz. apply H1. apply (Permutation_in _ (Permutation_sym P) Hz).
  - intros [H1 [H2 H3]]. inversion H1; subst. split; [constructor; auto|]. split; assumption.
Qed.
Lemma pairwise_app {A} (D : A -> A -> Prop) l l' : pairwise D l -> pairwise D l' -> (forall a b, In a l -> In b l' -> D a b) -> pairwise D (l ++ l').
Proof.
  induction l as [|a l IH]; intros H1 H2 H3; [exact H2|]. cbn [app pairwise] in *. destruct H1 as [H H1]. split.
  - apply Forall_app. split; [exact H|]. apply Forall_forall. intros b Hb. apply H3; [now left|exact Hb].
  - apply IH; auto. intros. apply H3; [now right|assumption].
Qed.

Section Enum.
Context (n : nat) (m : nat -> nat -> option R) (w : nat -> nat -> R) (HM : matrix_is n m w) (Hn : 0 < n)
        (d : R) (HD : valid_dropout d) (masks : nat -> nat -> nat -> bool).
Definition hcls (h : hentry) (T : list (nat * nat)) : Prop := cls n (h_inc h) (h_exc h) T.
Record good (h : hentry) : Prop := {
  g_inc : good_edges n (h_inc h); g_exc : good_edges n (h_exc h);
  g_cls : hcls h (h_mst h); g_tot : h_total h = weight w (h_mst h);
  g_min : d = 0%R -> forall T, hcls h T -> (h_total h <= weight w T)%R }.
Definition excl (h h' : hentry) : Prop := forall T, ~ (hcls h T /\ hcls h' T).
Lemma excl_sym h h' : excl h h' -> excl h' h.
Proof. intros H T [A B]. now apply (H T). Qed.

(** the constraints with the pending edge moved (lines 199-202) *)
Definition sinc (added : bool) (inc exc : list (nat * nat)) := if added then inc ++ [last exc (0, 0)] else inc.
Definition sexc (added : bool) (exc : list (nat * nat)) : list (nat * nat) := if added then removelast exc else exc.

Lemma cls_good I X M : cls n I X M -> good_edges n I.
Proof. intros (HT & HI & _) u v He. apply (tree_good n M HT). now apply HI. Qed.

Lemma branch_spec M : forall edges inc exc added t heap done,
  let I := sinc added inc exc in let X := sexc added exc in
  cls n I X M -> good_edges n X -> M = done ++ edges -> incl done I ->
  (forall e, In e edges -> In e I -> In e inc) ->
  exists news t', branch n m d masks true edges inc exc added t heap = Ok (news ++ heap, t') /\
    Forall good news /\ pairwise excl news /\
    (forall h T, In h news -> hcls h T -> cls n I X T /\ ~ same_tree T M) /\
    (d = 0%R -> forall T, cls n I X T -> same_tree T M \/ exists h, In h news /\ hcls h T).
Proof.
  induction edges as [|e edges IH]; intros inc exc added t heap done I X HC HX EM HI HP.
  - exists [], t. split; [reflexivity|]. split; [constructor|]. split; [exact Logic.I|]. split; [intros h T []|].
    intros _ T (TT & TI & _). left. destruct HC as (MT & _). rewrite app_nil_r in EM.
    intros x. symmetry. apply (tree_incl_same n M T MT TT). intros y Hy. apply TI, HI. now rewrite <- EM.
  - cbn [branch]. destruct (meme e inc) eqn:Ee.
    + apply meme_In in Ee. assert (EI : In e I) by (unfold I, sinc; destruct added; [apply in_or_app; now left|exact Ee]).
      apply (IH inc exc added t heap (done ++ [e])); auto.
      * now rewrite <- app_assoc.
      * intros x Hx. apply in_app_or in Hx. destruct Hx as [Hx|[<-|[]]]; auto.
      * intros x Hx. apply HP. now right.
    + apply meme_false in Ee. assert (NI : ~ In e I) by (intros H; apply Ee, HP; [now left|exact H]).
      fold (sinc added inc exc). fold (sexc added exc). fold I X. cbn zeta.
      destruct HC as (MT & MI & MX). assert (HeM : In e M) by (rewrite EM; apply in_or_app; right; now left).
      assert (GI : good_edges n I) by (intros u v H; apply (tree_good n M MT), MI, H).
      assert (GX : good_edges n (X ++ [e])).
      { intros u v H. apply in_app_or in H. destruct H as [H|[->|[]]]; [now apply HX|now apply (tree_good n M MT)]. }
      destruct (IH I (X ++ [e]) true (S t)) with (done := done ++ [e]) (heap := match
          (match mst_with_constraints n m I (X ++ [e]) d (masks t) true with Ok c => c | Err => None end) with
          | None => heap | Some (m', tot) => mkH tot m' I (X ++ [e]) :: heap end) as (news & t' & EB & GN & PN & DN & CN).
      * unfold sinc, sexc. rewrite last_last, removelast_last. split; [exact MT|]. split; [|exact MX]. intros x Hx. apply in_app_or in Hx. destruct Hx as [Hx|[<-|[]]]; [now apply MI|exact HeM].
      * unfold sexc. rewrite removelast_last. exact HX.
      * now rewrite <- app_assoc.
      * unfold sinc. rewrite last_last. intros x Hx. apply in_app_or in Hx. apply in_or_app. destruct Hx as [Hx|Hx]; [left; now apply HI|now right].
      * unfold sinc. rewrite last_last. intros x Hx HxI. apply in_app_or in HxI. destruct HxI as [HxI|[<-|[]]]; [exact HxI|]. exfalso.
        pose proof (tree_NoDup n M MT) as ND. rewrite EM in ND. apply NoDup_remove_2 in ND. apply ND. apply in_or_app. now right.
      * unfold sinc, sexc in DN, CN. rewrite last_last, removelast_last in DN, CN.
        assert (SPLIT : forall T, cls n I X T -> cls n I (X ++ [e]) T \/ cls n (I ++ [e]) X T).
        { intros T (TT & TI & TX). destruct (meme e T) eqn:H; [apply meme_In in H|apply meme_false in H].
          - right. split; [exact TT|]. split; [|exact TX]. intros x Hx. apply in_app_or in Hx. destruct Hx as [Hx|[<-|[]]]; auto.
          - left. split; [exact TT|]. split; [exact TI|]. intros x Hx. apply in_app_or in Hx. destruct Hx as [Hx|[<-|[]]]; auto. }
        assert (SUB1 : forall T, cls n I (X ++ [e]) T -> cls n I X T /\ ~ same_tree T M).
        { intros T (TT & TI & TX). split; [split; [exact TT|]; split; [exact TI|]; intros x Hx; apply TX, in_or_app; now left|].
          intros S. apply (TX e); [apply in_or_app; right; now left|]. now apply S. }
        assert (SUB2 : forall T, cls n (I ++ [e]) X T -> cls n I X T /\ ~ cls n I (X ++ [e]) T).
        { intros T (TT & TI & TX). split; [split; [exact TT|]; split; [|exact TX]; intros x Hx; apply TI, in_or_app; now left|].
          intros (_ & _ & K). apply (K e); [apply in_or_app; right; now left|]. apply TI, in_or_app. right. now left. }
        destruct (mwc_kruskal n m w I (X ++ [e]) d (masks t) true HM Hn GI GX HD) as (M' & MT' & _ & EK).
        rewrite EK in EB |- *. cbn [bind]. destruct (fits I (X ++ [e]) M') eqn:EF.
        -- exists (news ++ [mkH (weight w M') M' I (X ++ [e])]), t'. rewrite <- app_assoc. split; [exact EB|].
           assert (GH : good (mkH (weight w M') M' I (X ++ [e]))).
           { constructor; cbn [h_inc h_exc h_mst h_total]; auto; [now apply fits_cls|]. intros E0 T HT.
             destruct (mwc_min n m w I (X ++ [e]) (masks t) HM Hn GI GX) as [(M2 & E2 & _ & H2)|(E2 & H2)].
             - intros x Hx H. apply in_app_or in H. destruct H as [H|[<-|[]]]; [apply (MX x H), MI, Hx|contradiction].
             - rewrite E0, E2 in EK. injection EK as -> _. now apply H2.
             - elim (H2 T HT). }
           split; [apply Forall_app; split; [exact GN|constructor; [exact GH|constructor]]|]. split; [|split].
           ++ apply pairwise_app; [exact PN|cbn; auto|]. intros a b Ha [<-|[]] T [TA TB]. destruct (DN a T Ha TA) as [C _]. now apply (proj2 (SUB2 T C)).
           ++ intros h T Hh HT. apply in_app_or in Hh. destruct Hh as [Hh|[<-|[]]]; [|now apply SUB1].
              destruct (DN h T Hh HT) as [C N]. split; [now apply SUB2|exact N].
           ++ intros E0 T HT. destruct (SPLIT T HT) as [C|C].
              ** right. eexists. split; [apply in_or_app; right; now left|]. exact C.
              ** destruct (CN E0 T C) as [S|(h & Hh & HT')]; [now left|]. right. exists h. split; [apply in_or_app; now left|exact HT'].
        -- exists news, t'. split; [exact EB|]. split; [exact GN|]. split; [exact PN|]. split.
           ++ intros h T Hh HT. destruct (DN h T Hh HT) as [C N]. split; [now apply SUB2|exact N].
           ++ intros E0 T HT. destruct (SPLIT T HT) as [C|C].
              ** exfalso. destruct (mwc_min n m w I (X ++ [e]) (masks t) HM Hn GI GX) as [(M2 & E2 & _ & H2)|(E2 & H2)].
                 --- intros x Hx H. apply in_app_or in H. destruct H as [H|[<-|[]]]; [apply (MX x H), MI, Hx|contradiction].
                 --- rewrite E0, E2 in EK. discriminate.
                 --- now apply (H2 T).
              ** destruct (CN E0 T C) as [S|(h & Hh & HT')]; [now left|]. right. exists h. split; assumption.
Qed.

Definition nsame (T T' : list (nat * nat)) : Prop := ~ same_tree T T'.
Record inv (heap : list hentry) (out : list (list (nat * nat))) : Prop := {
  i_good : Forall good heap;
  i_excl : pairwise excl heap;
  i_tree : Forall (tree n) out;
  i_dist : pairwise nsame out;
  i_sep : forall T h, In T out -> In h heap -> ~ hcls h T;
  i_cov : d = 0%R -> forall T, tree n T -> (exists T', In T' out /\ same_tree T T') \/ exists h, In h heap /\ hcls h T;
  i_low : d = 0%R -> forall T h, In T out -> In h heap -> (weight w T <= h_total h)%R;
  i_sort : d = 0%R -> StronglySorted (fun A B => (weight w A <= weight w B)%R) out }.

Lemma cls_same I X T T' : same_tree T T' -> tree n T' -> cls n I X T -> cls n I X T'.
Proof. intros S HT (_ & TI & TX). split; [exact HT|]. split; [intros x Hx; apply S; now apply TI|]. intros x Hx H. apply (TX x Hx). now apply S. Qed.

Lemma sorted_snoc (w' : list (nat * nat) -> R) l a : StronglySorted (fun A B => (w' A <= w' B)%R) l -> (forall b, In b l -> (w' b <= w' a)%R) ->
  StronglySorted (fun A B => (w' A <= w' B)%R) (l ++ [a]).
Proof.
  induction 1 as [|x l S IH HF]; intros H; [repeat constructor|]. cbn [app]. constructor; [apply IH; intros; apply H; now right|].
  apply Forall_app. split; [exact HF|]. constructor; [apply H; now left|constructor].
Qed.

(** the final claim about the returned list *)
Definition result_ok (k : nat) (out : list (list (nat * nat))) : Prop :=
  Forall (tree n) out /\ pairwise nsame out /\ length out <= k /\
  (d = 0%R -> StronglySorted (fun A B => (weight w A <= weight w B)%R) out /\
    forall T, tree n T -> (exists T', In T' out /\ same_tree T T') \/ (length out = k /\ forall T', In T' out -> (weight w T' <= weight w T)%R)).

Lemma tloop_spec : forall left heap out t, inv heap out ->
  exists l, tloop left n m d masks true heap out t = Ok (out ++ l) /\ result_ok (length out + left) (out ++ l) /\
    (match pop_min heap with Some (h, _) => 0 < left -> exists l', l = h_mst h :: l' | None => True end).
Proof.
  induction left as [|k IH]; intros heap out t HI.
  - exists []. rewrite app_nil_r. split; [reflexivity|]. split; [|destruct (pop_min heap) as [[]|]; [lia|exact I]].
    destruct HI. split; [assumption|]. split; [assumption|]. split; [lia|]. intros E0. split; [auto|].
    intros T HT. destruct (i_cov0 E0 T HT) as [H|(h & Hh & HC)]; [now left|]. right. split; [lia|]. intros T' HT'.
    specialize (i_low0 E0 T' h HT' Hh). rewrite Forall_forall in i_good0. pose proof (g_min h (i_good0 h Hh) E0 T HC). lra.
  - cbn [tloop]. pose proof (pop_min_spec heap) as PM. destruct (pop_min heap) as [[h heap']|].
    2:{ subst heap. exists []. rewrite app_nil_r. split; [reflexivity|]. split; [|exact I]. destruct HI. split; [assumption|]. split; [assumption|].
        split; [lia|]. intros E0. split; [auto|]. intros T HT. destruct (i_cov0 E0 T HT) as [H|(h & [] & _)]. now left. }
    destruct PM as [P LOW]. destruct HI as [HG HE HT HDi HS HC HL HSo].
    assert (Hh : In h heap) by (apply (Permutation_in _ (Permutation_sym P)); now left).
    assert (Hsub : forall x, In x heap' -> In x heap) by (intros x Hx; apply (Permutation_in _ (Permutation_sym P)); now right).
    rewrite Forall_forall in HG. pose proof (HG h Hh) as Gh. pose proof (g_cls h Gh) as Ch. pose proof (proj1 Ch) as Th.
    pose proof (pairwise_perm excl excl_sym _ _ P HE) as HE'. destruct HE' as [HEh HE']. rewrite Forall_forall in HEh.
    assert (TO : Forall (tree n) (out ++ [h_mst h])) by (apply Forall_app; split; [exact HT|constructor; [exact Th|constructor]]).
    assert (DO : pairwise nsame (out ++ [h_mst h])).
    { apply pairwise_app; [exact HDi|cbn; auto|]. intros a b Ha [<-|[]] S. apply (HS a h Ha Hh). rewrite Forall_forall in HT.
      apply (cls_same _ _ (h_mst h)); [intros x; symmetry; apply S|now apply HT|exact Ch]. }
    assert (SO : d = 0%R -> StronglySorted (fun A B => (weight w A <= weight w B)%R) (out ++ [h_mst h])).
    { intros E0. apply sorted_snoc; [now apply HSo|]. intros b Hb. rewrite <- (g_tot h Gh). now apply HL. }
    cbn zeta. destruct (Nat.eqb_spec k 0) as [K|K].
    + subst k. exists [h_mst h]. split; [reflexivity|]. split; [|intros _; now exists []].
      split; [exact TO|]. split; [exact DO|]. split; [rewrite app_length; cbn; lia|]. intros E0. split; [now apply SO|].
      intros T HTt. destruct (HC E0 T HTt) as [(T' & H1 & H2)|(h' & Hh' & HCh)].
      * left. exists T'. split; [apply in_or_app; now left|exact H2].
      * right. split; [rewrite app_length; cbn; lia|]. intros T' HT'. pose proof (g_min h' (HG h' Hh') E0 T HCh) as LB.
        apply in_app_or in HT'. destruct HT' as [HT'|[<-|[]]]; [specialize (HL E0 T' h' HT' Hh'); lra|].
        rewrite <- (g_tot h Gh). apply (Permutation_in _ P) in Hh'. destruct Hh' as [<-|Hh']; [exact LB|]. specialize (LOW h' Hh'). lra.
    + rewrite (canon_id n _ (tree_good n _ Th)), (canon_id n _ (g_inc h Gh)), (canon_id n _ (g_exc h Gh)).
      destruct (branch_spec (h_mst h) (h_mst h) (h_inc h) (h_exc h) false t heap' []) as (news & t' & EB & GN & PN & DN & CN);
        [exact Ch|exact (g_exc h Gh)|reflexivity|intros x []|intros x _ Hx; exact Hx|].
      cbn [sinc sexc] in DN, CN. fold (hcls h) in DN, CN. rewrite EB. cbn [bind fst snd].
      destruct (IH (news ++ heap') (out ++ [h_mst h]) t') as (l & EL & RL & _).
      * rewrite Forall_forall in GN. split.
        -- apply Forall_forall. intros x Hx. apply in_app_or in Hx. destruct Hx as [Hx|Hx]; [now apply GN|apply HG, Hsub, Hx].
        -- apply pairwise_app; [exact PN|exact HE'|]. intros a b Ha Hb T [TA TB]. apply (HEh b Hb T). split; [apply (DN a T Ha TA)|exact TB].
        -- exact TO.
        -- exact DO.
        -- intros T x HTo Hx HCx. apply in_app_or in HTo. apply in_app_or in Hx. destruct HTo as [HTo|[<-|[]]], Hx as [Hx|Hx].
           ++ apply (HS T h HTo Hh). apply (DN x T Hx HCx).
           ++ apply (HS T x HTo (Hsub x Hx) HCx).
           ++ destruct (DN x _ Hx HCx) as [_ N]. apply N. intros y. reflexivity.
           ++ apply (HEh x Hx (h_mst h)). split; assumption.
        -- intros E0 T HTt. destruct (HC E0 T HTt) as [(T' & H1 & H2)|(h' & Hh' & HCh)]; [left; exists T'; split; [apply in_or_app; now left|exact H2]|].
           apply (Permutation_in _ P) in Hh'. destruct Hh' as [<-|Hh'].
           ++ destruct (CN E0 T HCh) as [S|(x & Hx & HCx)]; [left; exists (h_mst h); split; [apply in_or_app; right; now left|exact S]|].
              right. exists x. split; [apply in_or_app; now left|exact HCx].
           ++ right. exists h'. split; [apply in_or_app; now right|exact HCh].
        -- intros E0 T x HTo Hx. assert (LX : (h_total h <= h_total x)%R).
           { apply in_app_or in Hx. destruct Hx as [Hx|Hx]; [|now apply LOW]. pose proof (g_cls x (GN x Hx)) as CX. rewrite (g_tot x (GN x Hx)). apply (g_min h Gh E0). apply (DN x _ Hx CX). }
           apply in_app_or in HTo. destruct HTo as [HTo|[<-|[]]]; [specialize (HL E0 T h HTo Hh); lra|]. rewrite <- (g_tot h Gh). exact LX.
        -- exact SO.
      * exists (h_mst h :: l). rewrite <- app_assoc in EL. cbn [app] in EL. split; [exact EL|]. rewrite <- app_assoc in RL. cbn [app] in RL.
        split; [|intros _; now exists l]. replace (length out + S k) with (length (out ++ [h_mst h]) + k); [exact RL|]. rewrite app_length. cbn. lia.
Qed.
End Enum.

Lemma topk_run n m w k d masks : matrix_is n m w -> 0 < n -> 0 < k -> valid_dropout d ->
  exists out, topk_mst n n m k d masks true = Ok out /\ result_ok n w d k out /\
    out <> [] /\ forall T, tree n T -> (weight w (hd [] out) <= weight w T)%R.
Proof.
  intros HM Hn Hk HD. unfold topk_mst. replace (Nat.eqb k 0) with false by (symmetry; apply Nat.eqb_neq; lia). rewrite Nat.eqb_refl. cbn [negb].
  assert (G0 : good_edges n []) by (intros u v []).
  destruct (mwc_min n m w [] [] (fun _ _ => false) HM Hn G0 G0) as [(M & EM & CM & MIN)|(_ & NO)]; [intros e []| |].
  2:{ exfalso. destruct (mwc_kruskal n m w [] [] 0 (fun _ _ => false) true HM Hn G0 G0) as (M & HT & _); [split; lra|]. apply (NO M). split; [exact HT|]. split; [intros e []|intros e []]. }
  rewrite EM. cbn [bind]. set (h := mkH (weight w M) M [] []).
  destruct (tloop_spec n m w HM Hn d HD masks k [h] [] 0) as (l & EL & RL & FL).
  - split.
    + constructor; [|constructor]. constructor; cbn; auto.
    + cbn. auto.
    + constructor.
    + exact I.
    + intros T x [].
    + intros _ T HT. right. exists h. split; [now left|]. split; [exact HT|]. split; intros e [].
    + intros _ T x [].
    + intros _. constructor.
  - exists l. cbn [app length] in *. split; [exact EL|]. split; [exact RL|]. cbn [pop_min] in FL. destruct (FL Hk) as [l' ->]. split; [discriminate|].
    intros T HT. apply MIN. split; [exact HT|]. split; intros e [].
Qed.
