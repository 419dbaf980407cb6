(** learn_spn: every result is a valid circuit; termination. *)
From Coq Require Import List Arith Bool Reals Lia Lra Sorted Permutation.
From Verif Require Import Base ScopeModel ScopeProofs CircuitModel CircuitSpec CircuitBasics CircuitEval CircuitProps MargProofs
  PruneSpec PruneProofs PruneTop PruneMain LearnModel LearnSpec LearnProofs LearnTop.
Import ListNotations.
Local Open Scope R_scope.

Lemma omapi_ok {A B} (f : nat -> A -> option (result B)) (P : A -> B -> Prop) (X : Prop) : forall l k r,
  omapi f k l = Some r -> (forall i a r, In a l -> f i a = Some r -> (exists b, r = Ok b /\ P a b) \/ (r = Err /\ X)) ->
  (exists bs, r = Ok bs /\ Forall2 P l bs) \/ (r = Err /\ X).
Proof.
  induction l as [|a l IH]; intros k r E H; cbn [omapi] in E.
  - injection E as <-. left. exists []. split; [reflexivity|constructor].
  - destruct (f k a) as [ra|] eqn:Ea; [|discriminate]. cbn [obind] in E.
    destruct (H k a ra ltac:(now left) Ea) as [(b & -> & Pb)|[-> HX]].
    2:{ injection E as <-. right. auto. }
    destruct (omapi f (S k) l) as [rl|] eqn:El; [|discriminate]. cbn [obind] in E.
    destruct (IH (S k) rl El ltac:(intros; apply (H i); [now right|assumption])) as [(bs & -> & Pbs)|[-> HX]]; cbn in E; injection E as <-.
    + left. exists (b :: bs). split; [reflexivity|now constructor].
    + right. auto.
Qed.
Lemma omapi_some {A B} (f : nat -> A -> option (result B)) : forall l k, (forall i a, In a l -> f i a <> None) -> omapi f k l <> None.
Proof.
  induction l as [|a l IH]; intros k H; cbn [omapi]; [discriminate|].
  destruct (f k a) as [[b|]|] eqn:Ea; [|discriminate|exfalso; apply (H k a); [now left|exact Ea]]. cbn [obind].
  destruct (omapi f (S k) l) as [[bs|]|] eqn:El; [discriminate|discriminate|]. exfalso. apply (IH (S k)); [|exact El]. intros. apply H. now right.
Qed.
Lemma forall2_len {A B} (P : A -> B -> Prop) l l' : Forall2 P l l' -> length l = length l'.
Proof. induction 1; cbn; lia. Qed.
Lemma forall2_right {A B} (P : A -> B -> Prop) (Q : B -> Prop) l l' : (forall a b, In a l -> P a b -> Q b) -> Forall2 P l l' -> Forall Q l'.
Proof. intros H F. induction F; constructor; [eapply H; [now left|eassumption]|]. apply IHF. intros. eapply H; [right|]; eassumption. Qed.

Section Learn.
Variables (Or : oracles) (ps : list proto) (oc minf mini pc : nat).
Hypothesis SO : sound_oracles Or ps.
Hypothesis Hoc : (1 <= oc)%nat.
Hypothesis Hmini : (1 <= mini)%nat.
Let ref := Nat.max pc oc.

(** the inputs of a product have [ref] channels after the adaptation *)
Lemma adapt_ok path : forall qs ms k, Forall2 (fun q m => good ref q m) qs ms ->
  exists ms', adapt Or path ref k ms = Ok ms' /\
    Forall2 (fun q m => built m /\ aligned m /\ uniform 1 m /\ evidence (scope_of m) = [] /\ channels (out_shape m) = ref /\ mixes_single_channels m /\
                        (forall v, In v (query (scope_of m)) <-> In v q)) qs ms'.
Proof.
  intros qs ms k H. revert k. induction H as [|q m qs ms G H IH]; intros k; [exists []; split; [reflexivity|constructor]|].
  cbn [adapt]. destruct (IH (S k)) as (ms' & E & F).
  assert (exists m', (if Nat.ltb (channels (out_shape m)) ref then mk_sum_rand m ref 1 (o_rnd Or path k) else Ok m) = Ok m' /\
    built m' /\ aligned m' /\ uniform 1 m' /\ evidence (scope_of m') = [] /\ channels (out_shape m') = ref /\ mixes_single_channels m' /\
    (forall v, In v (query (scope_of m')) <-> In v q)) as (m' & E' & F').
  { destruct (Nat.ltb_spec (channels (out_shape m)) ref) as [L|L].
    - destruct (mk_sum_rand_intro m ref 1 (o_rnd Or path k)) as (lg & Es); [unfold ref; lia|eapply good_ch, G|apply (so_rnd _ _ SO)|].
      exists (MSum m ref 1 lg). split; [exact Es|]. split; [eapply b_sum_rand; [apply G| |exact Es]; lia|].
      split; [apply G|]. split; [split; [apply G|reflexivity]|]. split; [apply G|]. split; [reflexivity|].
      split; [apply mixes_sum; apply G|apply G].
    - exists m. split; [reflexivity|]. do 4 (split; [apply G|]). split; [pose proof (g_ch _ _ _ G); lia|]. split; apply G. }
  rewrite E'. cbn [bind]. rewrite E. cbn [bind]. exists (m' :: ms'). split; [reflexivity|]. now constructor.
Qed.

Lemma learn_ok : forall fuel path data q r, usable ps pc q -> q <> [] -> NoDup q ->
  learn Or ps oc minf mini fuel path data q = Some r ->
  (exists m, r = Ok m /\ good ref q m) \/ (r = Err /\ fit_raises Or).
Proof.
  induction fuel as [|n IH]; intros path data q r Us Hq ND E; [discriminate|]. cbn [learn] in E.
  assert (Leaf : forall r, Some (mv_leaf Or ps path q data) = Some r -> (exists m, r = Ok m /\ good ref q m) \/ (r = Err /\ fit_raises Or)).
  { intros r' E'. injection E' as <-. destruct (mv_leaf_ok Or ps oc 2 pc SO Hoc (le_n 2) path q data Us Hq ND) as [(m & Em & G)|[Em FR]]; [left; exists m; auto|right; auto]. }
  destruct (Nat.ltb_spec (length q) minf) as [_|Lq]; [now apply Leaf|].
  set (parts := if Nat.eqb (length data) 1 then [] else blocks q (o_part Or path data q)) in *.
  destruct (Nat.ltb_spec 1 (length parts)) as [L|L].
  - assert (Ep : parts = blocks q (o_part Or path data q)) by (unfold parts in *; destruct (Nat.eqb (length data) 1); [cbn in L; lia|reflexivity]).
    destruct (blocks_spec q (o_part Or path data q) ND (so_part _ _ SO path data q)) as (BU & BD & BN & _). rewrite <- Ep in BU, BD, BN. clearbody parts.
    assert (Us' : forall b, In b parts -> usable ps pc b).
    { intros b Hb. destruct Us as (U1 & U2 & U3 & U4). repeat (split; [assumption|]). intros v Hv. apply U4. now apply (BN b Hb). }
    destruct (omapi (fun k part => learn Or ps oc minf mini n (k :: 0%nat :: path) data part) 0 parts) as [rs|] eqn:EO; [|discriminate].
    destruct (omapi_ok _ (fun q m => good ref q m) (fit_raises Or) parts 0%nat rs EO) as [(subs & -> & F)|[-> FR]].
    + intros i b r' Hb Er. apply (IH _ _ _ _ (Us' b Hb)) in Er; [exact Er|apply (BN b Hb)|apply (BN b Hb)].
    + cbn [obind] in E. injection E as <-.
      assert (Er : Nat.max match ps with [] => 0%nat | p :: _ => p_ch p end oc = ref).
      { unfold ref. destruct ps as [|p ps'] eqn:Eps.
        - exfalso. destruct q as [|v q']; [congruence|]. destruct Us as (_ & _ & _ & U). destruct (U v ltac:(now left)) as (p & [] & _).
        - destruct Us as (_ & U & _). rewrite (U p ltac:(now left)). reflexivity. }
      rewrite Er. destruct (adapt_ok path parts subs 0%nat F) as (ms & Em & F'). rewrite Em. cbn [bind].
      destruct (good_product ref q ms) as (m & Ep' & G & _).
      * rewrite <- (forall2_len _ _ _ F'). lia.
      * unfold ref. lia.
      * eapply forall2_right; [|exact F']. intros b m _ K. cbn in K. tauto.
      * clear -BD F'. induction F' as [|b m bs ms K F' IHF]; [constructor|]. inversion BD as [|? ? B1 B2]; subst. constructor; [|now apply IHF].
        apply Forall_forall. intros m' Hm' v Hv Hv'. assert (exists b', In b' bs /\ (forall v, In v (query (scope_of m')) <-> In v b')) as (b' & Hb' & K').
        { clear -F' Hm'. induction F' as [|b m bs ms K F' IHF]; [destruct Hm'|]. destruct Hm' as [<-|Hm']; [exists b; split; [now left|apply K]|].
          destruct (IHF Hm') as (b' & X & Y). exists b'. split; [now right|exact Y]. }
        rewrite Forall_forall in B1. apply (B1 b' Hb' v); [now apply K|now apply K'].
      * intros v. rewrite BU. clear -F'. induction F' as [|b m bs ms K F' IHF]; [split; intros (x & [] & _)|].
        split; intros (x & [<-|Hx] & Hv).
        -- exists m. split; [now left|now apply K].
        -- destruct (proj1 IHF) as (m' & Hm' & Hv'); [now exists x|]. exists m'. split; [now right|exact Hv'].
        -- exists b. split; [now left|now apply K].
        -- destruct (proj2 IHF) as (m' & Hm' & Hv'); [now exists x|]. exists m'. split; [now right|exact Hv'].
      * left. exists m. split; [exact Ep'|exact G].
    + cbn [obind] in E. injection E as <-. right. auto.
  - clear parts L. destruct (Nat.ltb_spec (length data) mini) as [_|Ld]; [now apply Leaf|].
    match type of E with obind (omapi ?g _ _) _ = _ => set (f := g) in * end.
    destruct (omapi f 0 (seq 0 oc)) as [rs|] eqn:EO; [|discriminate].
    destruct (omapi_ok f (fun _ m => good ref q m /\ channels (out_shape m) = 1%nat) (fit_raises Or) (seq 0 oc) 0%nat rs EO) as [(sums & -> & F)|[-> FR]].
    + intros i j r' _ Er. unfold f in Er. set (labels := o_clus Or path i data) in *.
      destruct (omapi (fun k a => learn Or ps oc minf mini n (k :: S i :: path) (rows_of data labels a) q) 0 (sortu labels)) as [rl|] eqn:EL; [|discriminate].
      assert (HLl : length labels = length data) by apply (so_clus _ _ SO).
      destruct (omapi_ok _ (fun (_ : nat) m => good ref q m) (fit_raises Or) (sortu labels) 0%nat rl EL) as [(subs & -> & F)|[-> FR]].
      * intros i' a r'' Ha Er'. apply (IH _ _ _ _ Us Hq ND Er').
      * cbn [obind] in Er. injection Er as <-. destruct (mixture_ok ref q (length data) (map (fun a => length (rows_of data labels a)) (sortu labels)) subs) as (m & Em & G & Ch & _).
        -- lia.
        -- unfold ref. lia.
        -- intros ->. inversion F as [E0|]. destruct labels as [|a labels']; [cbn in HLl; lia|]. assert (In a (sortu (a :: labels'))) as K by (apply sortu_In; now left). rewrite <- E0 in K. destruct K.
        -- rewrite map_length. exact (forall2_len _ _ _ F).
        -- now apply rows_sizes.
        -- intros s Hs. apply in_map_iff in Hs. destruct Hs as (a & <- & Ha). apply rows_pos; [exact HLl|]. rewrite sortu_In in Ha. exact Ha.
        -- eapply forall2_right; [|exact F]. intros a b _ K. exact K.
        -- left. exists m. auto.
      * cbn [obind] in Er. injection Er as <-. right. auto.
    + cbn [obind] in E. assert (Ls : length sums = oc) by (rewrite <- (forall2_len _ _ _ F), seq_length; reflexivity).
      assert (Fg : Forall (fun m => good ref q m /\ channels (out_shape m) = 1%nat) sums) by (eapply forall2_right; [|exact F]; cbn; tauto).
      assert (Fg1 : Forall (good ref q) sums) by (eapply Forall_impl; [|exact Fg]; cbn; tauto).
      destruct sums as [|s0 [|s1 sums]].
      * cbn in Ls. lia.
      * injection E as <-. left. exists s0. split; [reflexivity|]. now inversion Fg1.
      * injection E as <-. set (l := s0 :: s1 :: sums) in *.
        destruct (good_cat q ref l ltac:(discriminate) Fg1) as (sc & Ec & B & A & U & Fe & Ev & V & M & C). left. exists (MCat true sc l). split; [exact Ec|].
        constructor; try assumption.
        -- rewrite C. assert (nsum (map (fun m => channels (out_shape m)) l) = length l) as ->.
           { clear -Fg. induction Fg as [|m l [_ K] _ IH]; [reflexivity|]. cbn [map nsum length]. rewrite IH, K. lia. }
           unfold ref. lia.
        -- apply one_other. discriminate.
        -- discriminate.
    + cbn [obind] in E. injection E as <-. right. auto.
Qed.

(** *** termination *)
Hypothesis Hsplit : forall path i data, (mini <= length data)%nat -> (2 <= length (sortu (o_clus Or path i data)))%nat.
Lemma learn_ends : forall fuel path data q, NoDup q -> (length q + length data < fuel)%nat ->
  learn Or ps oc minf mini fuel path data q <> None.
Proof.
  induction fuel as [|n IH]; intros path data q ND HF; [lia|]. cbn [learn].
  destruct (Nat.ltb_spec (length q) minf) as [_|Lq]; [discriminate|].
  set (parts := if Nat.eqb (length data) 1 then [] else blocks q (o_part Or path data q)) in *.
  destruct (Nat.ltb_spec 1 (length parts)) as [L|L].
  - assert (Ep : parts = blocks q (o_part Or path data q)) by (unfold parts in *; destruct (Nat.eqb (length data) 1); [cbn in L; lia|reflexivity]).
    clearbody parts. destruct (omapi _ 0 parts) as [[subs|]|] eqn:EO; [discriminate|discriminate|]. exfalso.
    apply (omapi_some _ _ _) in EO; [exact EO|]. intros i b Hb. rewrite Ep in Hb, L.
    destruct (blocks_spec q (o_part Or path data q) ND (so_part _ _ SO path data q)) as (_ & _ & BN & _).
    apply IH; [apply (BN b Hb)|]. pose proof (blocks_shorter q _ b ND (so_part _ _ SO path data q) L Hb). lia.
  - destruct (Nat.ltb_spec (length data) mini) as [_|Ld]; [discriminate|].
    match goal with |- obind (omapi ?g _ _) _ <> _ => set (f := g) end.
    destruct (omapi f 0 (seq 0 oc)) as [[sums|]|] eqn:EO; [|discriminate|].
    + cbn [obind]. destruct sums as [|? [|? ?]]; discriminate.
    + exfalso. apply (omapi_some f) in EO; [exact EO|]. intros i j _. unfold f. set (labels := o_clus Or path i data).
      destruct (omapi _ 0 (sortu labels)) as [[subs|]|] eqn:EL; [discriminate|discriminate|]. exfalso.
      apply (omapi_some _ _ _) in EL; [exact EL|]. intros k a Ha. apply IH; [exact ND|].
      pose proof (rows_shorter data labels a (so_clus _ _ SO path i data) (Hsplit path i data Ld) Ha). lia.
Qed.
End Learn.

(** *** all leaves are estimated ones *)
From Verif Require Import CircuitMarg.
Lemma set_weights_leaves c co rr w m : set_weights c co rr w = Ok m -> leaves_of m = leaves_of c.
Proof. unfold set_weights. destruct (negb _); [discriminate|]. destruct (negb _); [discriminate|]. destruct (negb _); [discriminate|]. intros E. injection E as <-. reflexivity. Qed.
Lemma mk_sum_w_leaves c co nr w m : mk_sum_w c co nr w = Ok m -> leaves_of m = leaves_of c.
Proof. unfold mk_sum_w. destruct (negb _); [discriminate|]. destruct (_ && _)%bool; [discriminate|]. destruct (Nat.ltb _ _); [discriminate|]. apply set_weights_leaves. Qed.
Lemma mk_sum_rand_leaves c co nr w m : mk_sum_rand c co nr w = Ok m -> leaves_of m = leaves_of c.
Proof. unfold mk_sum_rand. destruct (Nat.ltb _ _); [discriminate|]. apply set_weights_leaves. Qed.
Lemma mk_cat_leaves d2 cs m : mk_cat d2 cs = Ok m -> leaves_of m = concat (map leaves_of cs).
Proof.
  unfold mk_cat. destruct cs as [|c cs]; [discriminate|]. destruct d2.
  - destruct (forallb _ _); [|discriminate]. destruct (all_equal _); [|discriminate]. intros E. injection E as <-. apply leaves_cat.
  - destruct (forallb _ _); [|discriminate]. destruct (all_pairwise_disjoint _) as [[]|]; cbn [bind]; try discriminate.
    destruct (join_all _); cbn [bind]; [|discriminate]. intros E. injection E as <-. apply leaves_cat.
Qed.
Lemma mk_product_leaves cs m : mk_product cs = Ok m -> leaves_of m = concat (map leaves_of cs).
Proof.
  unfold mk_product. assert (K : bind (mk_cat false cs) (fun c => Ok (MProduct c)) = Ok m -> leaves_of m = concat (map leaves_of cs)).
  { destruct (mk_cat false cs) as [c|] eqn:E; cbn [bind]; [|discriminate]. intros E'. injection E' as <-. exact (mk_cat_leaves _ _ _ E). }
  destruct cs as [|c [|? ?]]; [exact K| |exact K]. intros E. injection E as <-. cbn. now rewrite app_nil_r.
Qed.
Lemma sum_inputs_leaves cs m : sum_inputs cs = Ok m -> leaves_of m = concat (map leaves_of cs).
Proof. destruct cs as [|c [|? ?]]; [apply mk_cat_leaves| |apply mk_cat_leaves]. intros E. injection E as <-. cbn. now rewrite app_nil_r. Qed.
Lemma forall_concat {A} (P : A -> Prop) ls : Forall (Forall P) ls -> Forall P (concat ls).
Proof. induction 1; cbn; [constructor|]. apply Forall_app. auto. Qed.
Lemma omapi_all {A B} (f : nat -> A -> option (result B)) (P : B -> Prop) : forall l k bs,
  omapi f k l = Some (Ok bs) -> (forall i a b, f i a = Some (Ok b) -> P b) -> Forall P bs.
Proof.
  induction l as [|a l IH]; intros k bs E H; cbn [omapi] in E; [injection E as <-; constructor|].
  destruct (f k a) as [[b|]|] eqn:Ea; try discriminate. cbn [obind] in E.
  destruct (omapi f (S k) l) as [[bs'|]|] eqn:El; try discriminate. cbn [obind] in E. injection E as <-.
  constructor; [eapply H, Ea|eapply IH; eauto].
Qed.
Lemma fit_leaves_fitted Or path q data : forall ps k ls, fit_leaves Or path q data k ps = Ok ls -> Forall (fun m => Forall (fitted Or) (leaves_of m)) ls.
Proof.
  induction ps as [|p ps IH]; intros k ls E; cbn [fit_leaves] in E; [injection E as <-; constructor|].
  destruct (sortu _) as [|v0 rest]; [eapply IH, E|]. destruct (o_fit _ _ _ _ _) as [l|] eqn:EF; cbn [bind] in E; [|discriminate].
  destruct (fit_leaves _ _ _ _ _ _) as [ls'|] eqn:EL; cbn [bind] in E; [|discriminate]. injection E as <-.
  constructor; [|eapply IH, EL]. cbn. constructor; [|constructor]. now exists path, k, (v0 :: rest), data.
Qed.
Lemma mv_leaf_fitted Or ps path q data m : mv_leaf Or ps path q data = Ok m -> Forall (fitted Or) (leaves_of m).
Proof.
  unfold mv_leaf. destruct (fit_leaves _ _ _ _ _ _) as [ls|] eqn:EL; cbn [bind]; [|discriminate]. apply fit_leaves_fitted in EL.
  destruct (Nat.ltb _ _).
  - intros E. rewrite (mk_product_leaves _ _ E). apply forall_concat, Forall_map. exact EL.
  - destruct ls as [|l ls]; [discriminate|]. intros E. injection E as <-. now inversion EL.
Qed.
Lemma adapt_fitted Or path ref : forall ms k ms', adapt Or path ref k ms = Ok ms' ->
  Forall (fun m => Forall (fitted Or) (leaves_of m)) ms -> Forall (fun m => Forall (fitted Or) (leaves_of m)) ms'.
Proof.
  induction ms as [|m ms IH]; intros k ms' E H; cbn [adapt] in E; [injection E as <-; constructor|]. inversion H as [|? ? H1 H2]; subst.
  destruct (Nat.ltb _ _).
  - destruct (mk_sum_rand _ _ _ _) as [m1|] eqn:E1; cbn [bind] in E; [|discriminate].
    destruct (adapt _ _ _ _ _) as [ms1|] eqn:E2; cbn [bind] in E; [|discriminate]. injection E as <-.
    constructor; [|eapply IH; eauto]. now rewrite (mk_sum_rand_leaves _ _ _ _ _ E1).
  - cbn [bind] in E. destruct (adapt _ _ _ _ _) as [ms1|] eqn:E2; cbn [bind] in E; [|discriminate]. injection E as <-. constructor; [exact H1|eapply IH; eauto].
Qed.
Lemma learn_fitted Or ps oc minf mini : forall fuel path data q m,
  learn Or ps oc minf mini fuel path data q = Some (Ok m) -> Forall (fitted Or) (leaves_of m).
Proof.
  induction fuel as [|n IH]; intros path data q m E; [discriminate|]. cbn [learn] in E.
  destruct (Nat.ltb (length q) minf); [injection E as E; eapply mv_leaf_fitted, E|].
  set (parts := if Nat.eqb (length data) 1 then [] else blocks q (o_part Or path data q)) in *. clearbody parts.
  destruct (Nat.ltb 1 (length parts)).
  - destruct (omapi _ 0 parts) as [[subs|]|] eqn:EO; cbn [obind] in E; try discriminate. injection E as E.
    apply omapi_all with (P := fun m => Forall (fitted Or) (leaves_of m)) in EO; [|intros; eapply IH; eassumption].
    destruct (adapt _ _ _ _ _) as [ms|] eqn:EA; cbn [bind] in E; [|discriminate].
    rewrite (mk_product_leaves _ _ E). apply forall_concat, Forall_map. eapply adapt_fitted; eauto.
  - destruct (Nat.ltb (length data) mini); [injection E as E; eapply mv_leaf_fitted, E|].
    match type of E with obind (omapi ?g _ _) _ = _ => set (f := g) in * end.
    destruct (omapi f 0 (seq 0 oc)) as [[sums|]|] eqn:EO; cbn [obind] in E; try discriminate.
    apply omapi_all with (P := fun m => Forall (fitted Or) (leaves_of m)) in EO.
    + assert (K : Some (mk_cat true sums) = Some (Ok m) -> Forall (fitted Or) (leaves_of m)).
      { intros E'. injection E' as E'. rewrite (mk_cat_leaves _ _ _ E'). apply forall_concat, Forall_map. exact EO. }
      destruct sums as [|s [|? ?]]; [exact (K E)| |exact (K E)]. injection E as <-. now inversion EO.
    + intros i j b Eb. unfold f in Eb. destruct (omapi _ 0 (sortu _)) as [[subs|]|] eqn:EL; cbn [obind] in Eb; try discriminate. injection Eb as Eb.
      apply omapi_all with (P := fun m => Forall (fitted Or) (leaves_of m)) in EL; [|intros; eapply IH; eassumption].
      unfold mk_mixture in Eb. destruct (sum_inputs subs) as [inp|] eqn:EI; cbn [bind] in Eb; [|discriminate].
      rewrite (mk_sum_w_leaves _ _ _ _ _ Eb), (sum_inputs_leaves _ _ EI). apply forall_concat, Forall_map. exact EL.
Qed.

(** *** a clustering step is the mixture weighted by cluster sizes *)
Lemma omapi_nth {A B} (f : nat -> A -> option (result B)) : forall l k bs, omapi f k l = Some (Ok bs) ->
  length bs = length l /\ forall j da db, (j < length l)%nat -> f (k + j)%nat (nth j l da) = Some (Ok (nth j bs db)).
Proof.
  induction l as [|a l IH]; intros k bs E; cbn [omapi] in E; [injection E as <-; split; [reflexivity|intros j ? ? H; cbn in H; lia]|].
  destruct (f k a) as [[b|]|] eqn:Ea; try discriminate. cbn [obind] in E.
  destruct (omapi f (S k) l) as [[bs'|]|] eqn:El; try discriminate. cbn [obind] in E. injection E as <-.
  destruct (IH _ _ El) as [HL HN]. split; [cbn; lia|]. intros [|j] da db Hj; cbn [nth].
  - rewrite Nat.add_0_r. exact Ea.
  - rewrite <- (HN j da db); [f_equal; lia|cbn in Hj; lia].
Qed.
Lemma forall_nth_intro {A} (P : A -> Prop) l d : (forall j, (j < length l)%nat -> P (nth j l d)) -> Forall P l.
Proof. intros H. apply Forall_forall. intros x Hx. apply (In_nth _ _ d) in Hx. destruct Hx as (j & Hj & <-). now apply H. Qed.
Lemma cat_singles s sc ms i : Forall (fun m => channels (out_shape m) = 1%nat) ms -> (i < length ms)%nat -> forall d,
  pev s (MCat true sc ms) 0 i 0 = pev s (nth i ms d) 0 0 0.
Proof.
  intros H Hi d. destruct (nth_split ms d Hi) as (pre & post & E & L). set (m := nth i ms d) in *.
  assert (N : nsum (map (fun c => channels (out_shape c)) pre) = i).
  { rewrite <- L. rewrite E in H. apply Forall_app in H. destruct H as [H _]. clear -H. induction H as [|x l K _ IH]; [reflexivity|]. cbn [map nsum length]. rewrite IH, K. reflexivity. }
  rewrite E. transitivity (pev s (MCat true sc (pre ++ m :: post)) 0 (nsum (map (fun c => channels (out_shape c)) pre) + 0) 0); [f_equal; lia|].
  apply pev_cat2. rewrite E in H. apply Forall_app in H. destruct H as [_ H]. apply Forall_inv in H. cbn in H. lia.
Qed.
Lemma mk_cat_true_shape cs m : mk_cat true cs = Ok m -> exists sc, m = MCat true sc cs.
Proof.
  unfold mk_cat. destruct cs as [|c cs]; [discriminate|]. destruct (forallb _ _); [|discriminate]. destruct (all_equal _); [|discriminate].
  intros E. injection E as <-. eauto.
Qed.
Lemma learn_cluster Or ps oc minf mini pc n path data q m :
  sound_oracles Or ps -> (1 <= oc)%nat -> (1 <= mini)%nat -> usable ps pc q -> q <> [] -> NoDup q ->
  (minf <= length q)%nat -> (mini <= length data)%nat -> length data = 1%nat \/ (length (blocks q (o_part Or path data q)) <= 1)%nat ->
  learn Or ps oc minf mini (S n) path data q = Some (Ok m) ->
  forall i, (i < oc)%nat -> let labels := o_clus Or path i data in
    exists subs, length subs = length (sortu labels) /\
      (forall k, (k < length subs)%nat -> learn Or ps oc minf mini n (k :: S i :: path) (rows_of data labels (nth k (sortu labels) 0%nat)) q = Some (Ok (nth k subs m))) /\
      forall s, pev s m 0 i 0 = bsum (length subs) (fun k => let sub := nth k subs m in
        INR (length (rows_of data labels (nth k (sortu labels) 0%nat))) / INR (length data) *
        (bsum (channels (out_shape sub)) (fun c => pev s sub 0 c 0) / INR (channels (out_shape sub)))).
Proof.
  intros SO Hoc Hmini Us Hq ND Lq Ld HB E i Hi labels. cbn [learn] in E.
  destruct (Nat.ltb_spec (length q) minf) as [X|_]; [lia|].
  assert (Nat.ltb 1 (length (if Nat.eqb (length data) 1 then [] else blocks q (o_part Or path data q))) = false) as Z.
  { apply Nat.ltb_ge. destruct (Nat.eqb_spec (length data) 1); [cbn; lia|]. destruct HB; [congruence|assumption]. }
  rewrite Z in E. destruct (Nat.ltb_spec (length data) mini) as [X|_]; [lia|].
  match type of E with obind (omapi ?g _ _) _ = _ => set (f := g) in * end.
  destruct (omapi f 0 (seq 0 oc)) as [[sums|]|] eqn:EO; cbn [obind] in E; try discriminate.
  destruct (omapi_nth _ _ _ _ EO) as [LS HS]. rewrite seq_length in LS, HS.
  assert (Each : forall j, (j < oc)%nat -> let lb := o_clus Or path j data in
     exists subs, omapi (fun k a => learn Or ps oc minf mini n (k :: S j :: path) (rows_of data lb a) q) 0 (sortu lb) = Some (Ok subs) /\
       mk_mixture (length data) (map (fun a => length (rows_of data lb a)) (sortu lb)) subs = Ok (nth j sums m)).
  { intros j Hj lb. specialize (HS j 0%nat m Hj). cbn [Nat.add] in HS. unfold f in HS. fold lb in HS.
    destruct (omapi _ 0 (sortu lb)) as [[subs|]|] eqn:EL; cbn [obind] in HS; try discriminate. injection HS as HS. exists subs. auto. }
  assert (Mix : forall j, (j < oc)%nat -> let lb := o_clus Or path j data in
     exists subs, length subs = length (sortu lb) /\
       (forall k, (k < length subs)%nat -> learn Or ps oc minf mini n (k :: S j :: path) (rows_of data lb (nth k (sortu lb) 0%nat)) q = Some (Ok (nth k subs m))) /\
       channels (out_shape (nth j sums m)) = 1%nat /\
       forall s, pev s (nth j sums m) 0 0 0 = lsumR (map (fun p => INR (fst p) / INR (length data) / INR (channels (out_shape (snd p))) *
                                 bsum (channels (out_shape (snd p))) (fun c => pev s (snd p) 0 c 0)) (combine (map (fun a => length (rows_of data lb a)) (sortu lb)) subs))).
  { intros j Hj lb. destruct (Each j Hj) as (subs & EL & EM). fold lb in EL, EM. destruct (omapi_nth _ _ _ _ EL) as [HL HN].
    exists subs. split; [exact HL|]. split; [intros k Hk; rewrite HL in Hk; exact (HN k 0%nat m Hk)|].
    assert (HLl : length lb = length data) by apply (so_clus _ _ SO).
    destruct (mixture_ok (Nat.max pc oc) q (length data) (map (fun a => length (rows_of data lb a)) (sortu lb)) subs) as (m' & Em & G & Ch & Pm).
    - lia.
    - lia.
    - intros ->. destruct lb as [|a lb']; [cbn in HLl; lia|]. assert (In a (sortu (a :: lb'))) as K by (apply sortu_In; now left). destruct (sortu (a :: lb')); [destruct K|discriminate].
    - rewrite map_length. now symmetry.
    - now apply rows_sizes.
    - intros s Hs. apply in_map_iff in Hs. destruct Hs as (a & <- & Ha). apply rows_pos; [exact HLl|]. rewrite sortu_In in Ha. exact Ha.
    - apply (forall_nth_intro _ _ m). intros k Hk. rewrite HL in Hk. specialize (HN k 0%nat m Hk).
      destruct (learn_ok Or ps oc minf mini pc SO Hoc Hmini _ _ _ _ _ Us Hq ND HN) as [(m0 & Em0 & G0)|[X _]]; [injection Em0 as ->; exact G0|discriminate].
    - rewrite EM in Em. injection Em as <-. auto. }
  destruct (Mix i Hi) as (subs & HL & HN & _ & P). fold labels in HL, HN, P. exists subs. split; [exact HL|]. split; [exact HN|]. intros s.
  transitivity (pev s (nth i sums m) 0 0 0).
  - assert (F1 : Forall (fun m => channels (out_shape m) = 1%nat) sums).
    { apply (forall_nth_intro _ _ m). intros j Hj. rewrite LS in Hj. destruct (Mix j Hj) as (? & _ & _ & K & _). exact K. }
    destruct sums as [|s0 [|s1 sums]]; [cbn in LS; lia| |].
    + injection E as ->. cbn in LS. assert (i = 0)%nat as -> by lia. reflexivity.
    + set (l := s0 :: s1 :: sums) in *. assert (E1 : mk_cat true l = Ok m) by congruence. clear E. apply mk_cat_true_shape in E1. destruct E1 as (sc & ->). rewrite (cat_singles s _ l i F1) with (d := MCat true sc l); [|lia]. reflexivity.
  - rewrite P. clear -HL. revert HL. generalize (sortu labels) as ids. induction subs as [|sub subs IH]; intros [|a ids] HL; cbn in HL; try discriminate; [reflexivity|].
    cbn [map combine lsumR length fst snd]. rewrite bsum_S_first. cbn [nth]. rewrite IH by lia. f_equal. unfold Rdiv. ring.
Qed.
