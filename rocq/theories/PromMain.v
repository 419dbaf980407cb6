(** Prometheus: every result is a valid circuit; structure; termination. *)
From Coq Require Import List Arith Bool Reals Lia Lra Sorted Permutation.
From Verif Require Import Base ScopeModel ScopeProofs CircuitModel CircuitSpec CircuitBasics CircuitEval CircuitProps MargProofs CircuitMarg
  PruneSpec PruneProofs PruneTop PruneMain LearnModel LearnSpec LearnProofs LearnTop LearnMain CnetModel CnetProofs PromModel PromSpec PromGraph PromParts PromTop.
Import ListNotations.
Local Open Scope R_scope.

Definition pick (q c : list nat) : list nat := map (fun i => nth i q 0%nat) c.
Lemma pick_length q c : length (pick q c) = length c.
Proof. apply map_length. Qed.

Lemma parts_ok d aff : (0 < d)%nat -> (forall E, aff = ASampled E -> edges_ok d E) -> refining d (partitions d aff) /\ (length (partitions d aff) < d)%nat.
Proof.
  intros Hd He. destruct aff as [A|E]; cbn [partitions].
  - destruct (full_spec d A) as (R & L & _). auto.
  - destruct (sampled_spec d E (He E eq_refl) Hd) as (R & L & _). cbn zeta in *. split; [exact R|lia].
Qed.
Lemma part_In d aff part : (0 < d)%nat -> (forall E, aff = ASampled E -> edges_ok d E) -> In part (partitions d aff) -> partition_of d part /\ (2 <= length part)%nat.
Proof.
  intros Hd He Hp. destruct (parts_ok d aff Hd He) as ([R _] & L). apply (In_nth _ _ []) in Hp. destruct Hp as (i & Hi & <-). destruct (R i Hi) as [P ->]. split; [exact P|lia].
Qed.

Lemma concat_NoDup_In {A} (ls : list (list A)) l : NoDup (concat ls) -> In l ls -> NoDup l.
Proof.
  induction ls as [|x ls IH]; cbn [concat]; intros ND [].
  - subst. now apply CltElim.NoDup_app_l in ND.
  - apply IH; [|assumption]. clear -ND. induction x; [exact ND|]. inversion ND; auto.
Qed.
Lemma concat_NoDup_pairs {A} (ls : list (list A)) : NoDup (concat ls) -> ForallOrdPairs (fun a b => forall v, In v a -> ~ In v b) ls.
Proof.
  induction ls as [|x ls IH]; cbn [concat]; intros ND; constructor.
  - apply Forall_forall. intros b Hb v Hv Hv'. clear IH. induction x as [|y x IHx]; [destruct Hv|]. cbn in ND. inversion ND as [|? ? N1 N2]; subst. destruct Hv as [->|Hv]; [|now apply IHx].
    apply N1. apply in_or_app. right. apply in_concat. exists b. auto.
  - apply IH. clear -ND. induction x; [exact ND|]. inversion ND; auto.
Qed.
Lemma part_scopes q part : NoDup q -> partition_of (length q) part ->
  (forall v, In v q <-> exists c, In c part /\ In v (pick q c)) /\
  ForallOrdPairs (fun a b => forall v : nat, In v (pick q a) -> ~ In v (pick q b)) part /\
  (forall c, In c part -> pick q c <> [] /\ NoDup (pick q c) /\ forall v, In v (pick q c) -> In v q).
Proof.
  intros ND (N & NDc & C).
  assert (B : forall c i, In c part -> In i c -> (i < length q)%nat) by (intros c i Hc Hi; apply C, in_concat; exists c; auto).
  split; [|split].
  - intros v. split.
    + intros Hv. apply (In_nth _ _ 0%nat) in Hv. destruct Hv as (i & Hi & <-). apply C in Hi. apply in_concat in Hi. destruct Hi as (c & Hc & Hi). exists c. split; [exact Hc|]. unfold pick. apply in_map_iff. eauto.
    + intros (c & Hc & Hv). unfold pick in Hv. apply in_map_iff in Hv. destruct Hv as (i & <- & Hi). apply nth_In. eauto.
  - assert (P := concat_NoDup_pairs _ NDc). clear N NDc C. induction P as [|c part F P IH]; constructor.
    + rewrite Forall_forall in *. intros b Hb v Hv Hv'. unfold pick in Hv, Hv'. apply in_map_iff in Hv, Hv'. destruct Hv as (i & <- & Hi), Hv' as (j & E & Hj).
      apply (proj1 (NoDup_nth q 0%nat) ND) in E; [subst; now apply (F b Hb i)|apply (B b); [now right|assumption]|apply (B c); [now left|assumption]].
    + apply IH. intros c' i Hc'. apply B. now right.
  - intros c Hc. split; [|split].
    + intros Z. apply (N c Hc). unfold pick in Z. now apply map_eq_nil in Z.
    + apply map_nth_NoDup; [exact ND|now apply (concat_NoDup_In part)|]. intros i. now apply B.
    + intros v Hv. unfold pick in Hv. apply in_map_iff in Hv. destruct Hv as (i & <- & Hi). apply nth_In. eauto.
Qed.
Lemma list_sum_concat {A} (ls : list (list A)) : list_sum (map (@length A) ls) = length (concat ls).
Proof. induction ls as [|l ls IH]; [reflexivity|]. unfold list_sum. cbn [map fold_right concat]. rewrite app_length, <- IH. reflexivity. Qed.
Lemma part_shorter d part c : partition_of d part -> (2 <= length part)%nat -> In c part -> (length c < d)%nat.
Proof.
  intros (N & ND & C) L Hc. assert (length (concat part) = d) as <-.
  { rewrite <- (seq_length d 0). apply Permutation_length, NoDup_Permutation; [exact ND|apply seq_NoDup|]. intros v. rewrite C, in_seq. lia. }
  rewrite <- list_sum_concat. apply (list_sum_lt (@length nat)); [exact L| |exact Hc]. intros b Hb. specialize (N b Hb). destruct b; [congruence|cbn; lia].
Qed.

Lemma forall2_map_l {A B C} (f : A -> B) (R : B -> C -> Prop) l l' : Forall2 (fun a c => R (f a) c) l l' -> Forall2 R (map f l) l'.
Proof. induction 1; cbn; constructor; auto. Qed.

Section Prom.
Variables (P : poracles) (ps : list proto) (minf mini pc : nat).
Hypothesis SO : sound_poracles P ps.
Notation Or := (po_base P).
Lemma base_sound : sound_oracles Or ps.
Proof. constructor; cbn; intros; try reflexivity; try (apply seq_length); try (eapply SO; eassumption); apply SO. Qed.

Lemma product_ok path j k q part subs : usable ps pc q -> NoDup q -> partition_of (length q) part -> (2 <= length part)%nat ->
  Forall2 (fun c m => good pc (pick q c) m) part subs ->
  exists m, bind (adapt_max Or (j :: k :: path) subs) mk_product = Ok m /\ good pc q m /\ chs m = list_max (map (fun m => chs m) subs).
Proof.
  intros Us ND HP L F. destruct (part_scopes q part ND HP) as (PU & PD & PN).
  unfold adapt_max. set (t := list_max (map (fun m => chs m) subs)).
  assert (HG : Forall (fun m => (1 <= chs m <= pc)%nat) subs).
  { eapply forall2_right; [|exact F]. cbn. intros c m _ G. split; [eapply good_ch, G|apply G]. }
  assert (Ht : (1 <= t <= pc)%nat).
  { split.
    - destruct F as [|c m part subs G F]; [cbn in L; lia|]. inversion HG; subst. unfold t. cbn [map list_max fold_right]. unfold list_max. cbn. lia.
    - apply list_max_le. apply Forall_map. eapply Forall_impl; [|exact HG]. cbn. lia. }
  assert (F1 : Forall2 (fun q m => good (Nat.max 1 t) q m) (map (pick q) part) subs).
  { apply forall2_map_l. assert (HT : Forall (fun m => (chs m <= t)%nat) subs) by (apply (Forall_map (fun m => chs m) (fun x => (x <= t)%nat)), list_max_le; apply le_n).
    clear -F HT. clearbody t. induction F as [|c m part subs G F IH]; [constructor|]. inversion HT as [|? ? H1 H2]; subst. constructor; [|now apply IH]. apply (good_weaken pc); [exact G|lia]. }
  destruct (adapt_ok Or ps t 1 1 base_sound (proj1 Ht) (le_n 1) (j :: k :: path) _ _ 0%nat F1) as (ms & Em & F').
  assert (Nat.max 1 t = t) as Et by lia. rewrite Et in *. rewrite Em. cbn [bind].
  destruct (good_product t q ms) as (m & Ep & G & Ch).
  - rewrite <- (forall2_len _ _ _ F'), map_length. exact L.
  - lia.
  - eapply forall2_right; [|exact F']. intros b m _ K. cbn in K. tauto.
  - assert (PD' : ForallOrdPairs (fun a b => forall v : nat, In v a -> ~ In v b) (map (pick q) part)).
    { clear -PD. induction PD as [|c l H _ IH]; cbn [map]; constructor; [|exact IH]. apply Forall_map. exact H. }
    clear -PD' F'. induction F' as [|b m bs ms K F' IHF]; [constructor|]. inversion PD' as [|? ? B1 B2]; subst. constructor; [|now apply IHF].
    apply Forall_forall. intros m' Hm' v Hv Hv'. assert (exists b', In b' bs /\ (forall v, In v (query (scope_of m')) <-> In v b')) as (b' & Hb' & K').
    { clear -F' Hm'. induction F' as [|b m bs ms K F' IHF]; [destruct Hm'|]. destruct Hm' as [<-|Hm']; [exists b; split; [now left|apply K]|].
      destruct (IHF Hm') as (b' & X & Y). exists b'. split; [now right|exact Y]. }
    rewrite Forall_forall in B1. apply (B1 b' Hb' v); [now apply K|now apply K'].
  - intros v. rewrite PU. transitivity (exists b, In b (map (pick q) part) /\ In v b).
    { split; [intros (c & Hc & Hv); exists (pick q c); split; [now apply in_map|exact Hv]|]. intros (b & Hb & Hv). apply in_map_iff in Hb. destruct Hb as (c & <- & Hc). eauto. }
    clear -F'. induction F' as [|b m bs ms K F' IHF]; [split; intros (x & [] & _)|].
    split; intros (x & [<-|Hx] & Hv).
    + exists m. split; [now left|now apply K].
    + destruct (proj1 IHF) as (m' & Hm' & Hv'); [now exists x|]. exists m'. split; [now right|exact Hv'].
    + exists b. split; [now left|now apply K].
    + destruct (proj2 IHF) as (m' & Hm' & Hv'); [now exists x|]. exists m'. split; [now right|exact Hv'].
  - exists m. split; [exact Ep|]. split; [|exact Ch]. apply (good_weaken t); [exact G|lia].
Qed.

Definition ok (q : list nat) (r : result module) : Prop := (exists m, r = Ok m /\ good pc q m) \/ (r = Err /\ helper_raises P).
Lemma leaf_ok path q data : usable ps pc q -> q <> [] -> NoDup q -> ok q (mv_leaf Or ps path q data).
Proof.
  intros Us Hq ND. destruct (mv_leaf_ok Or ps 1 2 pc base_sound (le_n 1) (le_n 2) path q data Us Hq ND) as [(m & Em & G)|[Em FR]].
  - left. exists m. split; [exact Em|]. assert (Nat.max pc 1 = pc) as E by (destruct Us; lia). now rewrite E in G.
  - right. split; [exact Em|]. left. exact FR.
Qed.

Lemma group_ok (rec : list nat -> dataset -> list nat -> option (result module)) path k cd N q r :
  usable ps pc q -> q <> [] -> NoDup q -> (0 < N)%nat -> (0 < length cd)%nat ->
  (forall path b r, usable ps pc b -> b <> [] -> NoDup b -> rec path cd b = Some r -> ok b r) ->
  (if Nat.ltb (length cd) 2 then Some (Ok []) else
   match po_aff P path k cd q with
   | Err => Some Err
   | Ok aff =>
       let parts := partitions (length q) aff in
       obind (omapi (fun j part =>
         obind (omapi (fun _ c => rec (k :: length c :: c ++ path) cd (map (fun i => nth i q 0%nat) c)) 0 part) (fun subs =>
         Some (bind (adapt_max Or (j :: k :: path) subs) mk_product))) 0 parts) (fun prods =>
       Some (Ok (map (fun m => (INR (length cd) / INR N / INR (length parts), m)) prods)))
   end) = Some r ->
  (exists g, r = Ok g /\ Forall (fun p => 0 < fst p /\ good pc q (snd p)) g) \/ (r = Err /\ helper_raises P).
Proof.
  intros Us Hq ND HN Hcd HR E. destruct (Nat.ltb_spec (length cd) 2) as [L|L]; [injection E as <-; left; exists []; split; [reflexivity|constructor]|].
  destruct (po_aff P path k cd q) as [aff|] eqn:EA; [|injection E as <-; right; split; [reflexivity|right; now exists path, k, cd, q]].
  cbn zeta in E. assert (Hd : (0 < length q)%nat) by (destruct q; [congruence|cbn; lia]).
  assert (HE : forall E, aff = ASampled E -> edges_ok (length q) E) by (intros E0 ->; eapply SO, EA).
  destruct (omapi _ 0 (partitions (length q) aff)) as [rs|] eqn:EO; [|discriminate].
  destruct (omapi_ok _ (fun _ m => good pc q m) (helper_raises P) _ _ _ EO) as [(prods & -> & F)|[-> HX]].
  - intros j part r' Hp Er. destruct (part_In _ _ _ Hd HE Hp) as [Pp Lp]. destruct (part_scopes q part ND Pp) as (_ & _ & PN).
    destruct (omapi _ 0 part) as [rl|] eqn:EL; [|discriminate].
    destruct (omapi_ok _ (fun c m => good pc (pick q c) m) (helper_raises P) _ _ _ EL) as [(subs & -> & F)|[-> HX]].
    + intros i c r'' Hc Er'. destruct (PN c Hc) as (N1 & N2 & N3). fold (pick q c) in Er'. apply (HR _ _ _) in Er'; auto.
      destruct Us as (U1 & U2 & U3 & U4). repeat (split; [assumption|]). intros v Hv. apply U4. now apply N3.
    + cbn [obind] in Er. injection Er as <-. destruct (product_ok path j k q part subs Us ND Pp Lp F) as (m & Em & G & _). left. exists m. auto.
    + cbn [obind] in Er. injection Er as <-. right. auto.
  - cbn [obind] in E. injection E as <-. left. eexists. split; [reflexivity|]. apply Forall_map.
    assert (Fg : Forall (good pc q) prods) by (eapply forall2_right; [|exact F]; cbn; auto).
    assert (LP : length prods = length (partitions (length q) aff)) by (symmetry; exact (forall2_len _ _ _ F)).
    apply Forall_forall. intros m Hm. cbn [fst snd]. split; [|rewrite Forall_forall in Fg; now apply Fg].
    assert (0 < length (partitions (length q) aff))%nat by (rewrite <- LP; destruct prods; [destruct Hm|cbn; lia]).
    repeat apply Rdiv_lt_0_compat; apply lt_0_INR; lia.
  - cbn [obind] in E. injection E as <-. right. auto.
Qed.

Lemma plearn_ok : forall fuel path data q r, (1 <= mini)%nat -> usable ps pc q -> q <> [] -> NoDup q ->
  plearn P ps minf mini fuel path data q = Some r -> ok q r.
Proof.
  induction fuel as [|n IH]; intros path data q r Hmini Us Hq ND E; [discriminate|]. cbn [plearn] in E.
  destruct (Nat.ltb_spec (length q) minf) as [_|Lq]; cbn [orb] in E; [injection E as <-; now apply leaf_ok|].
  destruct (Nat.ltb_spec (length data) mini) as [_|Ld]; [injection E as <-; now apply leaf_ok|].
  set (lb := po_clus P path data q) in *. assert (HL : length lb = length data) by apply (sp_clus _ _ SO).
  match type of E with obind (omapi ?g _ _) _ = _ => set (f := g) in * end.
  destruct (omapi f 0 (sortu lb)) as [rs|] eqn:EO; [|discriminate].
  destruct (omapi_ok f (fun _ g => Forall (fun p => 0 < fst p /\ good pc q (snd p)) g) (helper_raises P) _ _ _ EO) as [(groups & -> & F)|[-> HX]].
  - intros k a r' Ha Er. unfold f in Er. cbn zeta in Er. refine (group_ok _ _ _ _ _ _ _ Us Hq ND _ _ _ Er); [lia| |].
    + apply rows_pos; [exact HL|]. rewrite sortu_In in Ha; exact Ha.
    + intros path' b r'' Ub Hb NDb Er'. eapply IH; eassumption.
  - cbn [obind] in E. set (products := concat groups) in *.
    assert (FP : Forall (fun p => 0 < fst p /\ good pc q (snd p)) products).
    { apply forall_concat. eapply forall2_right; [|exact F]. cbn. auto. }
    destruct (Nat.eqb_spec (length products) 0) as [Z|Z]; [injection E as <-; now apply leaf_ok|].
    destruct (rleb _ 0); [injection E as <-; now apply leaf_ok|]. injection E as <-.
    destruct (mix_ok pc q (map fst products) (map snd products)) as (m & Em & G & _).
    + destruct Us; lia.
    + intros K. apply map_eq_nil in K. rewrite K in Z. cbn in Z. lia.
    + now rewrite !map_length.
    + intros p Hp. apply in_map_iff in Hp. destruct Hp as (x & <- & Hx). rewrite Forall_forall in FP. now apply FP.
    + apply Forall_map. eapply Forall_impl; [|exact FP]. cbn. tauto.
    + left. exists m. auto.
  - cbn [obind] in E. injection E as <-. right. auto.
Qed.

(** *** termination: the scopes shrink *)
Lemma plearn_ends : forall fuel path data q, NoDup q -> (length q < fuel)%nat -> plearn P ps minf mini fuel path data q <> None.
Proof.
  induction fuel as [|n IH]; intros path data q ND HF; [lia|]. cbn [plearn]. destruct (_ || _)%bool; [discriminate|].
  set (lb := po_clus P path data q) in *.
  match goal with |- obind (omapi ?g _ _) _ <> _ => set (f := g) end.
  destruct (omapi f 0 (sortu lb)) as [[groups|]|] eqn:EO; [|discriminate|].
  - cbn [obind]. destruct (Nat.eqb _ _); [discriminate|]. destruct (rleb _ 0); discriminate.
  - exfalso. apply (omapi_some f) in EO; [exact EO|]. intros k a _. unfold f. cbn zeta. set (cd := rows_of data lb a).
    destruct (Nat.ltb _ 2); [discriminate|]. destruct (po_aff P path k cd q) as [aff|] eqn:EA; [|discriminate].
    destruct (omapi _ 0 (partitions (length q) aff)) as [[prods|]|] eqn:EP; [discriminate|discriminate|]. exfalso.
    apply (omapi_some _ _ _) in EP; [exact EP|]. intros j part Hp.
    destruct (omapi _ 0 part) as [[subs|]|] eqn:EL; [discriminate|discriminate|]. exfalso.
    apply (omapi_some _ _ _) in EL; [exact EL|]. intros i c Hc.
    assert (Hd : (0 < length q)%nat).
    { destruct q; [|cbn; lia]. exfalso. destruct aff; cbn in Hp; destruct Hp. }
    destruct (part_In (length q) aff part Hd) as [Pp Lp]; [intros E ->; eapply SO, EA|exact Hp|].
    destruct (part_scopes q part ND Pp) as (_ & _ & PN). apply IH; [apply (PN c Hc)|]. rewrite map_length. pose proof (part_shorter _ _ _ Pp Lp Hc). lia.
Qed.
End Prom.

(** *** structure *)
Lemma adapt_spec Or path ref : forall ms k ms', adapt Or path ref k ms = Ok ms' ->
  Forall2 (fun m m' => ((ref <= chs m)%nat /\ m' = m) \/ ((chs m < ref)%nat /\ exists lg, m' = MSum m ref 1 lg)) ms ms'.
Proof.
  induction ms as [|m ms IH]; intros k ms' E; cbn [adapt] in E; [injection E as <-; constructor|].
  destruct (Nat.ltb_spec (chs m) ref) as [L|L].
  - destruct (mk_sum_rand _ _ _ _) as [m1|] eqn:E1; cbn [bind] in E; [|discriminate].
    destruct (adapt _ _ _ _ _) as [ms1|] eqn:E2; cbn [bind] in E; [|discriminate]. injection E as <-.
    constructor; [|eapply IH; eauto]. right. split; [exact L|]. unfold mk_sum_rand in E1. destruct (Nat.ltb _ _); [discriminate|].
    unfold set_weights in E1. destruct (negb _); [discriminate|]. destruct (negb _); [discriminate|]. destruct (negb _); [discriminate|]. injection E1 as <-. eauto.
  - cbn [bind] in E. destruct (adapt _ _ _ _ _) as [ms1|] eqn:E2; cbn [bind] in E; [|discriminate]. injection E as <-. constructor; [left; auto|eapply IH; eauto].
Qed.
Lemma adapt_max_widened Or path ms ms' : adapt_max Or path ms = Ok ms' -> widened ms ms'.
Proof.
  intros E. apply adapt_spec in E. unfold widened. set (t := list_max (map (fun m => chs m) ms)) in *.
  assert (HT : Forall (fun m => (chs m <= t)%nat) ms) by (apply (Forall_map (fun m => chs m) (fun x => (x <= t)%nat)), list_max_le; apply le_n).
  clearbody t. induction E as [|m m' ms ms' H F IH]; [constructor|]. inversion HT as [|? ? T1 T2]; subst. constructor; [|now apply IH]. destruct H as [[H1 H2]|H]; [left; split; [lia|exact H2]|right; exact H].
Qed.
Lemma pev_mk_product ms m : mk_product ms = Ok m -> (2 <= length ms)%nat -> Forall (fun c => features (out_shape c) = 1%nat) ms -> forall s c d,
  pev s m 0 c 0 = bprod (length ms) (fun i => pev s (nth i ms d) 0 c 0).
Proof.
  intros E L F s c d. assert (exists sc, m = MProduct (MCat false sc ms)) as (sc & ->).
  { unfold mk_product in E. destruct ms as [|m0 [|m1 ms]]; cbn in L; try lia. unfold mk_cat in E. destruct (forallb _ _); [|discriminate].
    destruct (all_pairwise_disjoint _) as [[]|]; cbn [bind] in E; try discriminate. destruct (join_all _); cbn [bind] in E; [|discriminate]. injection E as <-. eauto. }
  rewrite pev_product. assert (NF : forall l, Forall (fun c => features (out_shape c) = 1%nat) l -> nsum (map (fun c => features (out_shape c)) l) = length l).
  { clear. induction 1 as [|x l H _ IH]; [reflexivity|]. cbn [map nsum length]. lia. }
  assert (features (out_shape (MCat false sc ms)) = length ms) as -> by (rewrite <- NF by exact F; cbn [out_shape features]; now rewrite map_map).
  apply bprod_ext. intros i Hi. destruct (nth_split ms d Hi) as (pre & post & Em & Lp). set (x := nth i ms d) in *.
  assert (Forall (fun c => features (out_shape c) = 1%nat) pre /\ features (out_shape x) = 1%nat) as [F1 F2].
  { rewrite Em in F. apply Forall_app in F. destruct F as [F1 F2]. split; [exact F1|]. now inversion F2. }
  transitivity (pev s (MCat false sc (pre ++ x :: post)) (nsum (map (fun c => features (out_shape c)) pre) + 0) c 0).
  - rewrite <- Em. f_equal. rewrite NF by exact F1. lia.
  - apply pev_cat1. lia.
Qed.

Section Struct.
Variables (P : poracles) (ps : list proto) (minf mini pc : nat).
Hypothesis SO : sound_poracles P ps.
Hypothesis Hmini : (1 <= mini)%nat.
Notation Or := (po_base P).
Lemma omapi_F2 {A B} (f : nat -> A -> option (result B)) : forall l k bs, omapi f k l = Some (Ok bs) -> Forall2 (fun a b => exists i, f i a = Some (Ok b)) l bs.
Proof.
  induction l as [|a l IH]; intros k bs E; cbn [omapi] in E; [injection E as <-; constructor|].
  destruct (f k a) as [[b|]|] eqn:Ea; try discriminate. cbn [obind] in E.
  destruct (omapi f (S k) l) as [[bs'|]|] eqn:El; try discriminate. cbn [obind] in E. injection E as <-. constructor; [now exists k|]. eapply IH, El.
Qed.
Lemma forall2_impl_l {A B} (R Q : A -> B -> Prop) l l' : (forall a b, In a l -> R a b -> Q a b) -> Forall2 R l l' -> Forall2 Q l l'.
Proof. intros H F. induction F; constructor; [apply H; [now left|assumption]|]. apply IHF. intros. apply H; [now right|assumption]. Qed.
Lemma forall2_map_r {A B C} (f : B -> C) (R : A -> C -> Prop) l l' : Forall2 (fun a b => R a (f b)) l l' -> Forall2 R l (map f l').
Proof. induction 1; cbn; constructor; auto. Qed.

Lemma plearn_step n path data q m : usable ps pc q -> q <> [] -> NoDup q -> (minf <= length q)%nat -> (mini <= length data)%nat ->
  plearn P ps minf mini (S n) path data q = Some (Ok m) ->
  let lb := po_clus P path data q in
  exists groups, length groups = length (sortu lb) /\
    (forall k, (k < length groups)%nat -> let cd := rows_of data lb (nth k (sortu lb) 0%nat) in
       cluster_products P (fun c b sub => plearn P ps minf mini n (k :: length c :: c ++ path) cd b = Some (Ok sub)) path k (length data) q cd (nth k groups [])) /\
    (concat groups = [] -> mv_leaf Or ps path q data = Ok m) /\
    (forall p, concat groups = [p] -> m = snd p) /\
    ((2 <= length (concat groups))%nat -> chs m = 1%nat /\ forall x,
       prob m x 0 0 0 = lsumR (map (fun p => fst p / lsumR (map fst (concat groups)) * (bsum (chs (snd p)) (fun c => prob (snd p) x 0 c 0) / INR (chs (snd p)))) (concat groups))).
Proof.
  intros Us Hq ND Lq Ld E lb. cbn [plearn] in E. destruct (Nat.ltb_spec (length q) minf); [lia|]. destruct (Nat.ltb_spec (length data) mini); [lia|]. cbn [orb] in E.
  fold lb in E. assert (HL : length lb = length data) by apply (sp_clus _ _ SO).
  match type of E with obind (omapi ?g _ _) _ = _ => set (f := g) in * end.
  destruct (omapi f 0 (sortu lb)) as [[groups|]|] eqn:EO; cbn [obind] in E; try discriminate.
  destruct (omapi_nth _ _ _ _ EO) as [LG HG]. exists groups. split; [exact LG|].
  assert (Hd : (0 < length q)%nat) by (destruct q; [congruence|cbn; lia]).
  assert (FP : Forall (fun p => 0 < fst p /\ good pc q (snd p)) (concat groups)).
  { apply forall_concat. apply (forall_nth_intro _ _ []). intros k Hk. rewrite LG in Hk. specialize (HG k 0%nat [] Hk). unfold f in HG. cbn zeta in HG.
    assert (Hr : (0 < length (rows_of data lb (nth k (sortu lb) 0%nat)))%nat).
    { apply rows_pos; [exact HL|]. assert (In (nth k (sortu lb) 0%nat) (sortu lb)) as K by (now apply nth_In). rewrite sortu_In in K. exact K. }
    assert (HN : (0 < length data)%nat) by lia.
    destruct (group_ok P ps pc SO (plearn P ps minf mini n) _ _ _ _ _ _ Us Hq ND HN Hr (fun path' b r Ub Hb NDb Er => plearn_ok P ps minf mini pc SO n path' _ b r Hmini Ub Hb NDb Er) HG) as [(g & Eg & F)|[X _]]; [injection Eg as <-; exact F|discriminate]. }
  split; [|split; [|split]].
  - intros k Hk cd. rewrite LG in Hk. specialize (HG k 0%nat [] Hk). cbn [Nat.add] in HG. unfold f in HG. fold cd in HG. cbn zeta in HG. unfold cluster_products.
    destruct (Nat.ltb_spec (length cd) 2) as [L2|L2]; [left; split; [exact L2|congruence]|right]. split; [exact L2|].
    destruct (po_aff P path k cd q) as [aff|] eqn:EA; [|discriminate]. exists aff. split; [reflexivity|].
    assert (HE : forall E, aff = ASampled E -> edges_ok (length q) E) by (intros E0 ->; eapply SO, EA).
    destruct (omapi _ 0 (partitions (length q) aff)) as [[prods|]|] eqn:EP; cbn [obind] in HG; try discriminate. injection HG as <-.
    apply forall2_map_r. cbn [fst snd]. apply omapi_F2 in EP. revert EP. apply forall2_impl_l. intros part pm Hp (j & Ej). split; [reflexivity|].
    destruct (omapi _ 0 part) as [[subs|]|] eqn:EL; cbn [obind] in Ej; try discriminate. injection Ej as Ej.
    destruct (adapt_max _ _ subs) as [inputs|] eqn:EI; cbn [bind] in Ej; [|discriminate]. exists subs, inputs.
    destruct (part_In _ _ _ Hd HE Hp) as [Pp Lp]. destruct (part_scopes q part ND Pp) as (_ & _ & PN).
    assert (F1 : Forall2 (fun c m => plearn P ps minf mini n (k :: length c :: c ++ path) cd (map (fun i => nth i q 0%nat) c) = Some (Ok m)) part subs).
    { apply omapi_F2 in EL. revert EL. apply forall2_impl_l. intros c sub _ (i & Ei). exact Ei. }
    split; [exact F1|]. assert (WI := adapt_max_widened _ _ _ _ EI). split; [exact WI|]. split; [exact Ej|].
    assert (FS : Forall (fun m => features (out_shape m) = 1%nat) subs).
    { eapply forall2_right; [|exact F1]. cbn. intros c sub Hc Es. destruct (PN c Hc) as (N1 & N2 & N3). apply (plearn_ok P ps minf mini pc SO) in Es; [|exact Hmini| |exact N1|exact N2].
      - destruct Es as [(m0 & Em0 & G0)|[X _]]; [injection Em0 as <-; apply G0|discriminate].
      - destruct Us as (U1 & U2 & U3 & U4). repeat (split; [assumption|]). intros v Hv. apply U4. now apply N3. }
    assert (FI : Forall (fun m => features (out_shape m) = 1%nat) inputs).
    { clear -WI FS. unfold widened in WI. set (t := list_max _) in WI. clearbody t. induction WI as [|m m' ms ms' H F IH]; [constructor|]. inversion FS; subst. constructor; [|now apply IH].
      destruct H as [[_ ->]|[_ (lg & ->)]]; assumption. }
    intros x c Hc. unfold prob, loglik. apply pev_mk_product; [exact Ej| |exact FI]. rewrite <- (forall2_len _ _ _ WI), <- (forall2_len _ _ _ F1). exact Lp.
  - intros Z. rewrite Z in E. cbn in E. congruence.
  - intros p Z. rewrite Z in E, FP. cbn [length Nat.eqb] in E. inversion FP as [|? ? [F1 F2] _]; subst.
    destruct (rleb _ 0) eqn:ER; [exfalso|cbn in E; congruence]. apply rleb_spec in ER. cbn [map] in ER. rewrite spread_total in ER; [cbn in ER; lra|reflexivity|]. intros m' [<-|[]]. eapply good_ch, F2.
  - intros L2. destruct (Nat.eqb_spec (length (concat groups)) 0); [lia|].
    destruct (mix_ok pc q (map fst (concat groups)) (map snd (concat groups))) as (m' & Em & G & Hm).
    + destruct Us; lia.
    + intros K. apply map_eq_nil in K. rewrite K in L2. cbn in L2. lia.
    + now rewrite !map_length.
    + intros p Hp. apply in_map_iff in Hp. destruct Hp as (x & <- & Hx). rewrite Forall_forall in FP. now apply FP.
    + apply Forall_map. eapply Forall_impl; [|exact FP]. cbn. tauto.
    + destruct (rleb _ 0) eqn:ER.
      * exfalso. apply rleb_spec in ER. rewrite spread_total in ER; [|now rewrite !map_length|].
        -- assert (0 < lsumR (map fst (concat groups))); [|lra]. apply lsumR_pos; [intros K; apply map_eq_nil in K; rewrite K in L2; cbn in L2; lia|].
           intros p Hp. apply in_map_iff in Hp. destruct Hp as (x & <- & Hx). rewrite Forall_forall in FP. now apply FP.
        -- intros m0 Hm0. apply in_map_iff in Hm0. destruct Hm0 as (x & <- & Hx). rewrite Forall_forall in FP. eapply good_ch, FP, Hx.
      * rewrite Em in E. injection E as ->. destruct Hm as [[X _]|[C Pm]]; [rewrite map_length in X; lia|]. split; [exact C|]. intros x. unfold prob, loglik.
        fold (pev (leaf_score x) m 0 0 0). rewrite Pm. set (T := lsumR (map fst (concat groups))). f_equal. clearbody T. clear. induction (concat groups) as [|p l IH]; [reflexivity|]. cbn [map combine fst snd]. rewrite IH. reflexivity.
Qed.

Lemma plearn_fitted : forall fuel path data q m, plearn P ps minf mini fuel path data q = Some (Ok m) -> Forall (pfitted P) (leaves_of m).
Proof.
  induction fuel as [|n IH]; intros path data q m E; [discriminate|]. cbn [plearn] in E.
  destruct (_ || _)%bool; [injection E as E; apply (mv_leaf_fitted Or _ _ _ _ _ E)|].
  set (lb := po_clus P path data q) in *.
  match type of E with obind (omapi ?g _ _) _ = _ => set (f := g) in * end.
  destruct (omapi f 0 (sortu lb)) as [[groups|]|] eqn:EO; cbn [obind] in E; try discriminate.
  assert (FG : Forall (fun p => Forall (pfitted P) (leaves_of (snd p))) (concat groups)).
  { apply forall_concat. eapply omapi_all; [exact EO|]. intros k a g Eg. unfold f in Eg. cbn zeta in Eg. destruct (Nat.ltb _ 2); [injection Eg as <-; constructor|].
    destruct (po_aff _ _ _ _ _) as [aff|]; [|discriminate]. destruct (omapi _ 0 (partitions (length q) aff)) as [[prods|]|] eqn:EP; cbn [obind] in Eg; try discriminate. injection Eg as <-.
    apply Forall_map. cbn [snd]. eapply omapi_all; [exact EP|]. intros j part pm Ej. cbv beta in Ej. destruct (omapi _ 0 part) as [[subs|]|] eqn:EL; cbn [obind] in Ej; try discriminate. injection Ej as Ej.
    destruct (adapt_max _ _ subs) as [inputs|] eqn:EI; cbn [bind] in Ej; [|discriminate]. rewrite (mk_product_leaves _ _ Ej). apply forall_concat, Forall_map.
    apply (adapt_fitted Or _ _ _ _ _ EI). eapply omapi_all; [exact EL|]. intros i c sub Es. eapply IH, Es. }
  destruct (Nat.eqb _ _); [injection E as E; apply (mv_leaf_fitted Or _ _ _ _ _ E)|]. destruct (rleb _ _); [injection E as E; apply (mv_leaf_fitted Or _ _ _ _ _ E)|].
  injection E as E. unfold mix_products in E.
  assert (FS : Forall (fun m => Forall (pfitted P) (leaves_of m)) (map snd (concat groups))) by (apply Forall_map; exact FG).
  assert (K : forall w, bind (sum_inputs (map snd (concat groups))) (fun inp => mk_sum_w inp 1 1 w) = Ok m -> Forall (pfitted P) (leaves_of m)).
  { intros w Ew. destruct (sum_inputs _) as [inp|] eqn:EI; cbn [bind] in Ew; [|discriminate]. rewrite (mk_sum_w_leaves _ _ _ _ _ Ew), (sum_inputs_leaves _ _ EI). apply forall_concat, Forall_map. exact FS. }
  destruct (map snd (concat groups)) as [|m0 [|m1 ms]]; [exact (K _ E)| |exact (K _ E)]. injection E as <-. now inversion FS.
Qed.
End Struct.
