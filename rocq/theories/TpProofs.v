(** The triple-product recursion computes the integral of the product. *)
From Coq Require Import List Arith ZArith Bool Reals Lia Lra Sorted.
From Verif Require Import Base ScopeModel ScopeProofs CircuitModel CircuitBasics CircuitEval CircuitSpec CircuitMarg Integral
  LeafModel LeafSpec LeafProofs LeafTop SignedModel SignedSpec SignedProofs LipProofs IpProofs TripleModel TripleSpec LtpProofs.
Import ListNotations.
Local Open Scope R_scope.

Lemma as_sum_tp_ok a b e : tp_ok a b e = true -> match a with SSum _ _ _ _ | SSigned _ _ _ _ => True | _ => False end ->
  exists c wa d wb h we, as_sum a = Some (c, wa) /\ as_sum b = Some (d, wb) /\ as_sum e = Some (h, we) /\ tp_ok c d h = true /\
  forall L, tp3 L a b e = sum_rule3 (schan c) (schan d) (schan h) wa wb we (tp3 L c d h).
Proof.
  intros H K. destruct a as [|c co rr lg|c co rr w| |]; try destruct K; cbn [tp_ok] in H; apply andb_true_iff in H; destruct H as [_ H];
    destruct (as_sum b) as [[d wb]|] eqn:E; try discriminate; destruct (as_sum e) as [[h we]|] eqn:E'; try discriminate; do 6 eexists;
    (split; [reflexivity|split; [reflexivity|split; [reflexivity|split; [exact H|]]]]);
    intros L; cbn [tp3]; rewrite E, E'; reflexivity.
Qed.

Lemma tp_ok_header a b c : tp_ok a b c = true -> same_header a b = true /\ same_header a c = true.
Proof. destruct a; cbn [tp_ok]; intros H; apply andb_true_iff in H; destruct H as [H _]; apply andb_true_iff in H; tauto. Qed.

Lemma tp_ok_cat2 sc cs sc' ds sc'' es : tp_ok (SCat true sc cs) (SCat true sc' ds) (SCat true sc'' es) = true ->
  forall c d e, In c cs -> In d ds -> In e es -> tp_ok c d e = true.
Proof.
  cbn [tp_ok]. rewrite !andb_true_iff. intros [_ [_ H]] c d e Hc Hd He. rewrite forallb_forall in H.
  specialize (H (tp_ok c) (in_map tp_ok cs c Hc)). rewrite forallb_forall in H. specialize (H d Hd). rewrite forallb_forall in H. now apply H.
Qed.
Inductive all3 (P : smod -> smod -> smod -> Prop) : list smod -> list smod -> list smod -> Prop :=
| all3_nil : all3 P [] [] []
| all3_cons c d e cs ds es : P c d e -> all3 P cs ds es -> all3 P (c :: cs) (d :: ds) (e :: es).
Lemma tp_ok_cat1 sc cs sc' ds sc'' es : tp_ok (SCat false sc cs) (SCat false sc' ds) (SCat false sc'' es) = true ->
  all3 (fun c d e => tp_ok c d e = true) cs ds es.
Proof.
  cbn [tp_ok]. rewrite !andb_true_iff, !Nat.eqb_eq. intros [_ [_ [[E E'] H]]]. revert ds es E E' H.
  induction cs as [|c cs IH]; intros [|d ds] [|e es] E E' H; cbn in E, E'; try lia; constructor.
  - cbn in H. apply andb_true_iff in H. tauto.
  - apply IH; [lia|lia|]. cbn in H. apply andb_true_iff in H. tauto.
Qed.
Lemma tp_ok_cat_inv d2 sc cs b c : tp_ok (SCat d2 sc cs) b c = true -> exists sc' ds sc'' es, b = SCat d2 sc' ds /\ c = SCat d2 sc'' es.
Proof.
  cbn [tp_ok]. rewrite andb_true_iff. intros [_ H]. destruct b as [| | |d2' sc' ds|]; try discriminate. destruct c as [| | |d2'' sc'' es|]; try discriminate.
  apply andb_true_iff in H. destruct H as [H _]. apply andb_true_iff in H. destruct H as [H H']. apply Bool.eqb_prop in H, H'. subst. repeat eexists.
Qed.

(** the three circuits map their output features to the same variables *)
Lemma fts_eq3 a : forall b e, tp_ok a b e = true -> wf (skel a) -> wf (skel b) -> wf (skel e) ->
  sorted_leaves a -> sorted_leaves b -> sorted_leaves e ->
  fts (skel a) = fts (skel b) /\ fts (skel a) = fts (skel e).
Proof.
  unfold sorted_leaves.
  assert (SUM : forall a c wa, as_sum a = Some (c, wa) -> match a with SSum _ _ _ _ | SSigned _ _ _ _ => True | _ => False end ->
    (forall b e, tp_ok c b e = true -> wf (skel c) -> wf (skel b) -> wf (skel e) ->
      Forall (fun l => StronglySorted lt (query (sl_scope l))) (sleaves c) -> Forall (fun l => StronglySorted lt (query (sl_scope l))) (sleaves b) ->
      Forall (fun l => StronglySorted lt (query (sl_scope l))) (sleaves e) ->
      fts (skel c) = fts (skel b) /\ fts (skel c) = fts (skel e)) ->
    forall b e, tp_ok a b e = true -> wf (skel a) -> wf (skel b) -> wf (skel e) ->
      Forall (fun l => StronglySorted lt (query (sl_scope l))) (sleaves a) -> Forall (fun l => StronglySorted lt (query (sl_scope l))) (sleaves b) ->
      Forall (fun l => StronglySorted lt (query (sl_scope l))) (sleaves e) ->
      fts (skel a) = fts (skel b) /\ fts (skel a) = fts (skel e)).
  { intros a0 c wa E K IH b e H Wa Wb We Sa Sb Se.
    destruct (as_sum_tp_ok _ _ _ H K) as (c' & wa' & d & wb & h & we & E1 & E2 & E3 & Hok & _). rewrite E in E1. injection E1 as <- <-.
    destruct (as_sum_inv _ _ _ E) as (J1 & J2 & _). destruct (as_sum_inv _ _ _ E2) as (K1 & K2 & _). destruct (as_sum_inv _ _ _ E3) as (M1 & M2 & _).
    rewrite J1 in Wa |- *. rewrite K1 in Wb |- *. rewrite M1 in We |- *. cbn [fts wf] in *. rewrite J2 in Sa. rewrite K2 in Sb. rewrite M2 in Se.
    apply IH; tauto. }
  induction a as [l|c co rr lg IH|c co rr w IH|d2 sc cs IH|c IH] using smod_ind'; intros b e H Wa Wb We Sa Sb Se.
  - pose proof (tp_ok_header _ _ _ H) as [Hd Hd']. apply same_header_inv in Hd, Hd'. destruct Hd as [Hq _], Hd' as [Hq' _].
    cbn [tp_ok] in H. apply andb_true_iff in H. destruct H as [_ H]. destruct b as [l'| | | |]; try discriminate. destruct e as [l''| | | |]; try discriminate.
    cbn in Hq, Hq' |- *. split; f_equal; apply sorted_ext; auto; try now inversion Sa. now inversion Sb. now inversion Se.
  - eapply SUM; [reflexivity|exact I|exact IH|..]; eassumption.
  - eapply SUM; [reflexivity|exact I|exact IH|..]; eassumption.
  - destruct (tp_ok_cat_inv _ _ _ _ _ H) as (sc' & ds & sc'' & es & -> & ->).
    pose proof (wf_scat _ _ _ Wa) as Wc. pose proof (wf_scat _ _ _ Wb) as Wd. pose proof (wf_scat _ _ _ We) as Wh.
    apply Forall_leaves_cat in Sa, Sb, Se. cbn [skel fts]. destruct d2.
    + assert (cs <> [] /\ ds <> [] /\ es <> []) as (Nc & Nd & Ne).
      { cbn in Wa, Wb, We. destruct Wa as [A _], Wb as [B _], We as [C _]. split; [|split]; intros ->; [now apply A|now apply B|now apply C]. }
      destruct cs as [|c cs]; [congruence|]. destruct ds as [|d ds]; [congruence|]. destruct es as [|e es]; [congruence|]. cbn [map hd].
      apply (Forall_inv IH); try now apply Forall_inv in Wc, Wd, Wh, Sa, Sb, Se.
      apply (tp_ok_cat2 _ _ _ _ _ _ H); now left.
    + apply tp_ok_cat1 in H. rewrite !map_map. cut (map (fun x => fts (skel x)) cs = map (fun x => fts (skel x)) ds /\ map (fun x => fts (skel x)) cs = map (fun x => fts (skel x)) es).
      { intros [-> E]. rewrite E. auto. }
      clear Wa Wb We. induction H as [|c d e cs ds es H1 H2 IHf]; [auto|].
      inversion IH; inversion Wc; inversion Wd; inversion Wh; inversion Sa; inversion Sb; inversion Se; subst. cbn [map].
      destruct IHf as [X1 X2]; auto. rewrite <- X1, <- X2. match goal with I : forall b e, tp_ok c b e = true -> _ |- _ => destruct (I d e) as [Y1 Y2]; auto end.
      rewrite <- Y1, <- Y2. auto.
  - cbn [tp_ok] in H. apply andb_true_iff in H. destruct H as [_ H]. destruct b as [| | | |d]; try discriminate. destruct e as [| | | |h]; try discriminate.
    cbn in Wa, Wb, We, Sa, Sb, Se |- *. destruct (IH d h) as [X Y]; auto. rewrite <- X, <- Y. auto.
Qed.

(** ** induction over the triples of positions the recursion visits *)
Section visits.
Variable Rr : nat.
Variable Q : sleaf -> sleaf -> sleaf -> Prop.
Variable P : smod -> smod -> smod -> nat -> nat -> nat -> nat -> nat -> Prop.

Record triple_ok (a b e : smod) : Prop := {
  to_tp : tp_ok a b e = true; to_wa : wf (skel a); to_wb : wf (skel b); to_we : wf (skel e);
  to_ua : uniform Rr (skel a); to_ub : uniform Rr (skel b); to_ue : uniform Rr (skel e);
  to_sa : sorted_leaves a; to_sb : sorted_leaves b; to_se : sorted_leaves e;
  to_q : forall la lb le, In la (sleaves a) -> In lb (sleaves b) -> In le (sleaves e) ->
         query (sl_scope la) = query (sl_scope lb) -> query (sl_scope la) = query (sl_scope le) -> Q la lb le }.

Hypothesis HL : forall la lb le f ca cb ce r, triple_ok (SLeaf la) (SLeaf lb) (SLeaf le) -> stp_ok la lb le = true -> Q la lb le ->
  query (sl_scope la) = query (sl_scope lb) -> query (sl_scope la) = query (sl_scope le) -> sl_rep la = Rr -> sl_rep lb = Rr -> sl_rep le = Rr ->
  (f < length (query (sl_scope la)))%nat -> (ca < sl_ch la)%nat -> (cb < sl_ch lb)%nat -> (ce < sl_ch le)%nat -> (r < Rr)%nat ->
  P (SLeaf la) (SLeaf lb) (SLeaf le) f ca cb ce r.
Hypothesis HS : forall a b e c wa d wb h we f ca cb ce r, triple_ok a b e -> triple_ok c d h ->
  as_sum a = Some (c, wa) -> as_sum b = Some (d, wb) -> as_sum e = Some (h, we) ->
  (forall L, tp3 L a b e = sum_rule3 (schan c) (schan d) (schan h) wa wb we (tp3 L c d h)) ->
  (forall i j k, (i < schan c)%nat -> (j < schan d)%nat -> (k < schan h)%nat -> P c d h f i j k r) -> P a b e f ca cb ce r.
Hypothesis HC : forall a b e c d h f ca cb ce r f' ca' cb' ce', triple_ok a b e -> triple_ok c d h ->
  (forall L, tp3 L a b e f ca cb ce r = tp3 L c d h f' ca' cb' ce' r) ->
  (forall x, fun_of a x f ca r = fun_of c x f' ca' r) -> (forall x, fun_of b x f cb r = fun_of d x f' cb' r) ->
  (forall x, fun_of e x f ce r = fun_of h x f' ce' r) ->
  nthq (skel a) f = nthq (skel c) f' ->
  P c d h f' ca' cb' ce' r -> P a b e f ca cb ce r.
Hypothesis HP : forall c d h ca cb ce r, triple_ok (SProduct c) (SProduct d) (SProduct h) -> triple_ok c d h -> sfeat c = sfeat d -> sfeat c = sfeat h ->
  (forall f, (f < sfeat c)%nat -> pos_ok Rr c f ca r /\ pos_ok Rr d f cb r /\ pos_ok Rr h f ce r /\ P c d h f ca cb ce r) ->
  P (SProduct c) (SProduct d) (SProduct h) 0 ca cb ce r.

Lemma visit3_sum a c wa : as_sum a = Some (c, wa) -> match a with SSum _ _ _ _ | SSigned _ _ _ _ => True | _ => False end ->
  (forall b e, triple_ok c b e -> forall f ca cb ce r, pos_ok Rr c f ca r -> pos_ok Rr b f cb r -> pos_ok Rr e f ce r -> P c b e f ca cb ce r) ->
  forall b e, triple_ok a b e -> forall f ca cb ce r, pos_ok Rr a f ca r -> pos_ok Rr b f cb r -> pos_ok Rr e f ce r -> P a b e f ca cb ce r.
Proof using HS.
  intros E K IH b e PO f ca cb ce r Pa Pb Pe. pose proof PO as [H Wa Wb We Ua Ub Ue Sa Sb Se HQ].
  destruct (as_sum_tp_ok _ _ _ H K) as (c' & wa' & d & wb & h & we & E1 & E2 & E3 & Hok & EL).
  assert (c' = c) as -> by congruence. assert (wa' = wa) as -> by congruence.
  destruct (as_sum_inv _ _ _ E) as (J1 & J2 & _). destruct (as_sum_inv _ _ _ E2) as (K1 & K2 & _). destruct (as_sum_inv _ _ _ E3) as (M1 & M2 & _).
  unfold sorted_leaves in *. rewrite J2 in Sa, HQ. rewrite K2 in Sb, HQ. rewrite M2 in Se, HQ.
  rewrite J1 in Wa, Ua. rewrite K1 in Wb, Ub. rewrite M1 in We, Ue. cbn [wf uniform] in Wa, Ua, Wb, Ub, We, Ue.
  assert (triple_ok c d h) as PO' by (constructor; auto; tauto).
  apply (HS _ _ _ c wa d wb h we); auto. intros i j k Hi Hj Hk.
  pose proof Pa as [Pa1 Pa2 Pa3]. pose proof Pb as [Pb1 Pb2 Pb3]. pose proof Pe as [Pe1 Pe2 Pe3].
  unfold sfeat in Pa1, Pb1, Pe1. rewrite J1 in Pa1. rewrite K1 in Pb1. rewrite M1 in Pe1.
  apply IH; auto; constructor; auto.
Qed.

Lemma visit3 : forall a b e, triple_ok a b e -> forall f ca cb ce r, pos_ok Rr a f ca r -> pos_ok Rr b f cb r -> pos_ok Rr e f ce r -> P a b e f ca cb ce r.
Proof using HL HS HC HP.
  induction a as [l|c co rr lg IH|c co rr w IH|d2 sc cs IH|c IH] using smod_ind'.
  2: { eapply visit3_sum; [reflexivity|exact I|exact IH]. }
  2: { eapply visit3_sum; [reflexivity|exact I|exact IH]. }
  all: intros b e PO f ca cb ce r Pa Pb Pe; pose proof PO as [H Wa Wb We Ua Ub Ue Sa Sb Se HQ].
  - pose proof H as H'. cbn [tp_ok] in H'. apply andb_true_iff in H'. destruct H' as [_ H']. destruct b as [l'| | | |]; try discriminate. destruct e as [l''| | | |]; try discriminate.
    pose proof (fts_eq3 _ _ _ H Wa Wb We Sa Sb Se) as [EF EF']. cbn in EF, EF'.
    assert (forall l1 l2 : list nat, map (fun v => [v]) l1 = map (fun v => [v]) l2 -> l1 = l2) as Inj.
    { induction l1 as [|? ? I1]; intros [|? ?] E; cbn in E; try discriminate; auto. injection E as -> E. f_equal. now apply I1. }
    apply Inj in EF, EF'.
    destruct Pa, Pb, Pe. cbn in *. apply HL; auto.
  - destruct (tp_ok_cat_inv _ _ _ _ _ H) as (sc' & ds & sc'' & es & -> & ->).
    pose proof (wf_scat _ _ _ Wa) as Wc. pose proof (wf_scat _ _ _ Wb) as Wd. pose proof (wf_scat _ _ _ We) as Wh.
    pose proof (proj1 (map_fix_uniform Rr cs) Ua) as Uc. pose proof (proj1 (map_fix_uniform Rr ds) Ub) as Ud. pose proof (proj1 (map_fix_uniform Rr es) Ue) as Uh.
    pose proof (proj1 (Forall_leaves_cat _ d2 sc cs) Sa) as Sc. pose proof (proj1 (Forall_leaves_cat _ d2 sc' ds) Sb) as Sd. pose proof (proj1 (Forall_leaves_cat _ d2 sc'' es) Se) as Sh.
    rewrite Forall_forall in IH, Wc, Wd, Wh, Uc, Ud, Uh, Sc, Sd, Sh.
    destruct (cat_pos Rr d2 sc cs f ca r Wa Pa) as (m & k & Hp & Hin & _ & Pm).
    destruct (cat_pos Rr d2 sc' ds f cb r Wb Pb) as (m' & k' & Hp' & Hin' & _ & Pm').
    destruct (cat_pos Rr d2 sc'' es f ce r We Pe) as (m'' & k'' & Hp'' & Hin'' & _ & Pm'').
    assert (forall la lb le, In la (sleaves m) -> In lb (sleaves m') -> In le (sleaves m'') -> query (sl_scope la) = query (sl_scope lb) -> query (sl_scope la) = query (sl_scope le) -> Q la lb le) as HQ'.
    { intros la lb le A B C. apply HQ; rewrite sleaves_cat; apply in_concat; eexists; (split; [apply in_map|]); eassumption. }
    assert (tp_ok m m' m'' = true /\ (if d2 then True else k = k' /\ k = k'')
            /\ forall L, tp3 L (SCat d2 sc cs) (SCat d2 sc' ds) (SCat d2 sc'' es) f ca cb ce r
                         = tp3 L m m' m'' (if d2 then f else k) (if d2 then k else ca) (if d2 then k' else cb) (if d2 then k'' else ce) r) as (Hok & Ek & EL).
    { destruct d2.
      - split; [now apply (tp_ok_cat2 _ _ _ _ _ _ H)|split; [trivial|]]. intros L. cbn [tp3].
        rewrite (pick_map (sdim true) fst (fun c => (sdim true c, tp3 L c))) by reflexivity. now rewrite Hp, Hp', Hp''.
      - apply tp_ok_cat1 in H.
        assert (exists q, pick (fun p => sdim false (fst p)) (combine cs (combine ds es)) f = Some (q, k) /\ fst q = m /\ fst (snd q) = m' /\ snd (snd q) = m''
                 /\ k = k' /\ k = k'' /\ tp_ok m m' m'' = true) as (q & E1 & E2 & E3 & E4 & E5 & E6 & E7).
        { clear - H Hp Hp' Hp''. revert f Hp Hp' Hp''. induction H as [|c d e cs ds es H1 H2 IHf]; intros f Hp Hp' Hp''; [discriminate|].
          pose proof (tp_ok_header _ _ _ H1) as [G1 G2]. apply same_header_inv in G1, G2. destruct G1 as [_ G1], G2 as [_ G2].
          change (sdim false c = sdim false d) in G1. change (sdim false c = sdim false e) in G2.
          cbn [combine pick fst] in *. rewrite <- G1 in Hp'. rewrite <- G2 in Hp''.
          destruct (Nat.ltb f (sdim false c)); [|now apply IHf].
          injection Hp as <- <-. injection Hp' as <- <-. injection Hp'' as <- <-. eexists. split; [reflexivity|]. auto 10. }
        split; [assumption|split; [auto|]]. intros L. cbn [tp3].
        rewrite combine_map_l.
        rewrite (pick_map (fun p : smod * (smod * smod) => sdim false (fst p)) (fun p => fst (fst p)) (fun p => ((sdim false (fst p), tp3 L (fst p)), snd p))) by reflexivity.
        rewrite E1. cbn. now rewrite E2, E3, E4. }
    assert (triple_ok m m' m'') as PO' by (constructor; auto; [now apply Sc|now apply Sd|now apply Sh]).
    apply (HC _ _ _ m m' m'' f ca cb ce r (if d2 then f else k) (if d2 then k else ca) (if d2 then k' else cb) (if d2 then k'' else ce)); auto.
    + intros x. rewrite (fun_cat d2 sc cs x f ca r m k Hp). now destruct d2.
    + intros x. rewrite (fun_cat d2 sc' ds x f cb r m' k' Hp'). destruct d2; [reflexivity|]. now rewrite (proj1 Ek).
    + intros x. rewrite (fun_cat d2 sc'' es x f ce r m'' k'' Hp''). destruct d2; [reflexivity|]. now rewrite (proj2 Ek).
    + destruct d2; [|apply (fts_pick sc); auto; now apply Forall_forall].
      unfold nthq. cbn [skel fts]. destruct cs as [|c0 cs]; [destruct Hin|]. cbn [map hd].
      assert (In c0 (c0 :: cs)) as H0 by now left.
      assert (fts (skel c0) = fts (skel m')) as F1.
      { apply (fts_eq3 c0 m' m''); [now apply (tp_ok_cat2 _ _ _ _ _ _ H)|now apply Wc|now apply Wd|now apply Wh|now apply Sc|now apply Sd|now apply Sh]. }
      assert (fts (skel m) = fts (skel m')) as F2.
      { apply (fts_eq3 m m' m''); [assumption|now apply Wc|now apply Wd|now apply Wh|now apply Sc|now apply Sd|now apply Sh]. }
      now rewrite F1, F2.
    + apply IH; auto; destruct d2; try assumption; [now rewrite (proj1 Ek)|now rewrite (proj2 Ek)].
  - pose proof H as H'. cbn [tp_ok] in H'. apply andb_true_iff in H'. destruct H' as [_ H']. destruct b as [| | | |d]; try discriminate. destruct e as [| | | |h]; try discriminate.
    unfold sorted_leaves in *. cbn in Wa, Wb, We, Ua, Ub, Ue, Sa, Sb, Se, HQ.
    assert (triple_ok c d h) as PO' by (constructor; auto).
    pose proof (tp_ok_header _ _ _ H') as [Hd Hd']. apply same_header_inv in Hd, Hd'. destruct Hd as [_ Hd], Hd' as [_ Hd'].
    destruct Pa as [P1 P2 P3], Pb as [P4 P5 P6], Pe as [P7 P8 P9]. cbn in P1. replace f with 0%nat by (unfold sfeat in P1; cbn in P1; lia).
    apply HP; auto. intros g Hg.
    assert (pos_ok Rr c g ca r) as X1 by (constructor; auto).
    assert (pos_ok Rr d g cb r) as X2 by (constructor; auto; now rewrite <- Hd).
    assert (pos_ok Rr h g ce r) as X3 by (constructor; auto; now rewrite <- Hd').
    split; [assumption|split; [assumption|split; [assumption|]]]. now apply IH.
Qed.
End visits.

(** ** missing values stand for summed-out variables *)
Definition Lmix3 (x : row) (la lb le : sleaf) : T5 := fun f ca cb ce r =>
  match x (nth f (query (sl_scope la)) 0%nat) with
  | None => stpv la lb le f ca cb ce r
  | Some a => leaf_at la f ca r a * leaf_at lb f cb r a * leaf_at le f ce r a
  end.

Lemma tp3_product L c d h f ca cb ce r : tp3 L (SProduct c) (SProduct d) (SProduct h) f ca cb ce r = bprod (sfeat c) (fun g => tp3 L c d h g ca cb ce r).
Proof. reflexivity. Qed.

Section mix.
Variable Rr : nat.
Variable Q : sleaf -> sleaf -> sleaf -> Prop.

Lemma mix3_nan a b e : triple_ok Rr Q a b e -> forall f ca cb ce r, pos_ok Rr a f ca r -> pos_ok Rr b f cb r -> pos_ok Rr e f ce r ->
  forall x, (forall v, In v (nthq (skel a) f) -> x v = None) -> tp3 (Lmix3 x) a b e f ca cb ce r = tp3 stpv a b e f ca cb ce r.
Proof.
  revert a b e. apply (visit3 Rr Q (fun a b e f ca cb ce r => forall x, (forall v, In v (nthq (skel a) f) -> x v = None) -> tp3 (Lmix3 x) a b e f ca cb ce r = tp3 stpv a b e f ca cb ce r)).
  - intros la lb le f ca cb ce r _ _ _ _ _ _ _ _ Hf _ _ _ _ x H. cbn [tp3]. unfold Lmix3. rewrite H; [reflexivity|]. rewrite nthq_sleaf by assumption. now left.
  - intros a b e c wa d wb h we f ca cb ce r _ _ E1 E2 E3 EL IH x H. rewrite !EL. unfold sum_rule3.
    apply bsum_ext. intros i Hi. apply bsum_ext. intros j Hj. apply bsum_ext. intros k Hk. rewrite IH; auto. now rewrite <- (nthq_as_sum _ _ _ f E1).
  - intros a b e c d h f ca cb ce r f' ca' cb' ce' _ _ EL _ _ _ EN IH x H. rewrite !EL. apply IH. now rewrite <- EN.
  - intros c d h ca cb ce r PO PO' _ _ IH x H. rewrite !tp3_product. apply bprod_ext. intros g Hg. apply IH; auto.
    intros v Hv. apply H. cbn [skel]. apply nthq_product; [apply PO'|]. eauto.
Qed.

Lemma mix3_some a b e : triple_ok Rr Q a b e -> forall f ca cb ce r, pos_ok Rr a f ca r -> pos_ok Rr b f cb r -> pos_ok Rr e f ce r ->
  forall x, (forall v, In v (nthq (skel a) f) -> x v <> None) ->
  tp3 (Lmix3 x) a b e f ca cb ce r = fun_of a x f ca r * fun_of b x f cb r * fun_of e x f ce r.
Proof.
  revert a b e. apply (visit3 Rr Q (fun a b e f ca cb ce r => forall x, (forall v, In v (nthq (skel a) f) -> x v <> None) ->
    tp3 (Lmix3 x) a b e f ca cb ce r = fun_of a x f ca r * fun_of b x f cb r * fun_of e x f ce r)).
  - intros la lb le f ca cb ce r _ _ _ EQ EQ' _ _ _ Hf _ _ _ _ x H. cbn [tp3 fun_of]. unfold Lmix3, leaf_fun. rewrite <- EQ, <- EQ'.
    specialize (H (nth f (query (sl_scope la)) 0%nat)). rewrite nthq_sleaf in H by assumption.
    destruct (x (nth f (query (sl_scope la)) 0%nat)); [reflexivity|]. exfalso. apply H; [now left|reflexivity].
  - intros a b e c wa d wb h we f ca cb ce r _ _ E1 E2 E3 EL IH x H. rewrite EL. unfold sum_rule3.
    destruct (as_sum_inv _ _ _ E1) as (_ & _ & F1). destruct (as_sum_inv _ _ _ E2) as (_ & _ & F2). destruct (as_sum_inv _ _ _ E3) as (_ & _ & F3). rewrite F1, F2, F3.
    rewrite Rmult_assoc. rewrite <- bsum_scal_r. apply bsum_ext. intros i Hi.
    rewrite <- Rmult_assoc, <- (bsum_scal (schan d) (wa f i ca r * fun_of c x f i r)), <- bsum_scal_r. apply bsum_ext. intros j Hj.
    rewrite <- bsum_scal. apply bsum_ext. intros k Hk.
    rewrite IH; auto; [ring|]. now rewrite <- (nthq_as_sum _ _ _ f E1).
  - intros a b e c d h f ca cb ce r f' ca' cb' ce' _ _ EL EA EB EE EN IH x H. rewrite EL, EA, EB, EE. apply IH. now rewrite <- EN.
  - intros c d h ca cb ce r PO PO' EF EF' IH x H. rewrite tp3_product. cbn [fun_of]. rewrite <- EF, <- EF', <- !bprod_mult. apply bprod_ext. intros g Hg.
    apply IH; auto. intros v Hv. apply H. cbn [skel]. apply nthq_product; [apply PO'|]. eauto.
Qed.

Lemma mix3_local a b e : triple_ok Rr Q a b e -> forall f ca cb ce r, pos_ok Rr a f ca r -> pos_ok Rr b f cb r -> pos_ok Rr e f ce r ->
  forall x y, (forall v, In v (nthq (skel a) f) -> x v = y v) -> tp3 (Lmix3 x) a b e f ca cb ce r = tp3 (Lmix3 y) a b e f ca cb ce r.
Proof.
  revert a b e. apply (visit3 Rr Q (fun a b e f ca cb ce r => forall x y, (forall v, In v (nthq (skel a) f) -> x v = y v) -> tp3 (Lmix3 x) a b e f ca cb ce r = tp3 (Lmix3 y) a b e f ca cb ce r)).
  - intros la lb le f ca cb ce r _ _ _ _ _ _ _ _ Hf _ _ _ _ x y H. cbn [tp3]. unfold Lmix3. rewrite H; [reflexivity|]. rewrite nthq_sleaf by assumption. now left.
  - intros a b e c wa d wb h we f ca cb ce r _ _ E1 E2 E3 EL IH x y H. rewrite !EL. unfold sum_rule3.
    apply bsum_ext. intros i Hi. apply bsum_ext. intros j Hj. apply bsum_ext. intros k Hk. rewrite (IH i j k Hi Hj Hk x y); auto. now rewrite <- (nthq_as_sum _ _ _ f E1).
  - intros a b e c d h f ca cb ce r f' ca' cb' ce' _ _ EL _ _ _ EN IH x y H. rewrite !EL. apply IH. now rewrite <- EN.
  - intros c d h ca cb ce r PO PO' _ _ IH x y H. rewrite !tp3_product. apply bprod_ext. intros g Hg. apply IH; auto.
    intros v Hv. apply H. cbn [skel]. apply nthq_product; [apply PO'|]. eauto.
Qed.
End mix.

Lemma stp_ok_some la lb le f ca cb ce r : stp_ok la lb le = true ->
  (f < length (query (sl_scope la)))%nat -> (ca < sl_ch la)%nat -> (cb < sl_ch lb)%nat -> (ce < sl_ch le)%nat -> (r < sl_rep la)%nat ->
  stp la lb le f ca cb ce r = Some (stpv la lb le f ca cb ce r).
Proof.
  unfold stp_ok, stpv. intros H Hf Ha Hb He Hr.
  apply allb_true with (i := f) in H; [|assumption]. apply allb_true with (i := ca) in H; [|assumption].
  apply allb_true with (i := cb) in H; [|assumption]. apply allb_true with (i := ce) in H; [|assumption]. apply allb_true with (i := r) in H; [|assumption].
  now destruct (stp la lb le f ca cb ce r).
Qed.

Definition fits_triple D (la lb le : sleaf) : Prop := sleaf_fits D la /\ sleaf_fits D lb /\ sleaf_fits D le /\ exact_leaves3 la lb le.

Lemma mix3_step Rr D a b e : triple_ok Rr (fits_triple D) a b e -> forall f ca cb ce r, pos_ok Rr a f ca r -> pos_ok Rr b f cb r -> pos_ok Rr e f ce r ->
  forall x v, In v (nthq (skel a) f) ->
  sums (D v) (fun t => tp3 (Lmix3 (upd x v (Some t))) a b e f ca cb ce r) (tp3 (Lmix3 (upd x v None)) a b e f ca cb ce r).
Proof.
  revert a b e. apply (visit3 Rr (fits_triple D) (fun a b e f ca cb ce r => forall x v, In v (nthq (skel a) f) ->
    sums (D v) (fun t => tp3 (Lmix3 (upd x v (Some t))) a b e f ca cb ce r) (tp3 (Lmix3 (upd x v None)) a b e f ca cb ce r))).
  - intros la lb le f ca cb ce r _ Hok (F1 & F2 & F3 & EX) EQ EQ' Er Er' Er'' Hf Ha Hb He Hr x v Hv. rewrite nthq_sleaf in Hv by assumption. destruct Hv as [<-|[]].
    cbn [tp3]. unfold Lmix3 at 2. rewrite upd_same.
    eapply sums_ext; [intros t; unfold Lmix3; rewrite upd_same; reflexivity|].
    apply (stp_sums D); auto; try congruence. apply stp_ok_some; auto. now rewrite Er.
  - intros a b e c wa d wb h we f ca cb ce r PO PO' E1 E2 E3 EL IH x v Hv. rewrite EL. unfold sum_rule3.
    assert (0 < schan c)%nat as Cp by apply (wf_cpos _ (wf_wf1 _ (to_wa _ _ _ _ _ PO'))).
    assert (0 < schan d)%nat as Dp by apply (wf_cpos _ (wf_wf1 _ (to_wb _ _ _ _ _ PO'))).
    assert (0 < schan h)%nat as Ep by apply (wf_cpos _ (wf_wf1 _ (to_we _ _ _ _ _ PO'))).
    rewrite (nthq_as_sum _ _ _ f E1) in Hv.
    eapply sums_ext; [intros t; rewrite EL; unfold sum_rule3; reflexivity|].
    pose proof (IH 0%nat 0%nat 0%nat Cp Dp Ep x v Hv) as S0.
    apply (sums_bsum _ _ _ _ _ _ S0). intros i Hi.
    apply (sums_bsum _ _ _ _ _ _ S0). intros j Hj.
    apply (sums_bsum _ _ _ _ _ _ S0). intros k Hk.
    exact (sums_scal _ (wa f i ca r * wb f j cb r * we f k ce r) _ _ (IH i j k Hi Hj Hk x v Hv)).
  - intros a b e c d h f ca cb ce r f' ca' cb' ce' _ _ EL _ _ _ EN IH x v Hv. rewrite EL.
    eapply sums_ext; [intros t; symmetry; apply EL|]. apply IH. now rewrite <- EN.
  - intros c d h ca cb ce r PO PO' EF EF' IH x v Hv. cbn [skel] in Hv. apply nthq_product in Hv; [|apply PO'].
    destruct Hv as (g & Hg & Hv). fold (sfeat c) in Hg. rewrite tp3_product, (bprod_isolate _ _ g Hg).
    eapply sums_ext; [intros t; symmetry; rewrite tp3_product, (bprod_isolate _ _ g Hg); reflexivity|].
    destruct (IH g Hg) as (P1 & P2 & P3 & IH1). specialize (IH1 x v Hv).
    set (K := bprod (sfeat c) (fun i => if Nat.eqb i g then 1 else tp3 (Lmix3 (upd x v None)) c d h i ca cb ce r)).
    rewrite Rmult_comm. eapply sums_ext; [|apply (sums_scal (D v) K _ _ IH1)].
    intros t. cbn beta. rewrite Rmult_comm. f_equal. apply bprod_ext. intros i Hi.
    destruct (Nat.eqb_spec i g) as [->|Hn]; [reflexivity|].
    destruct (IH i Hi) as (Q1 & Q2 & Q3 & _). apply (mix3_local Rr (fits_triple D)); auto.
    intros u Hu. rewrite !upd_other; auto; intros ->;
      apply (wf_disj _ (wf_wf1 _ (to_wa _ _ _ _ _ PO')) i g Hi Hg Hn _ Hu Hv).
Qed.

Lemma tp_integral Rr D a b e k vars : constructed Rr a -> constructed Rr b -> constructed Rr e -> sorted_leaves a -> sorted_leaves b -> sorted_leaves e ->
  Forall (sleaf_fits D) (sleaves a) -> Forall (sleaf_fits D) (sleaves b) -> Forall (sleaf_fits D) (sleaves e) ->
  (forall la lb le, In la (sleaves a) -> In lb (sleaves b) -> In le (sleaves e) -> query (sl_scope la) = query (sl_scope lb) -> query (sl_scope la) = query (sl_scope le) -> exact_leaves3 la lb le) ->
  triple_product_tensor a b e = Ok k ->
  forall f ca cb ce r, pos_ok Rr a f ca r -> pos_ok Rr b f cb r -> pos_ok Rr e f ce r ->
  NoDup vars -> (forall v, In v vars <-> In v (nthq (skel a) f)) ->
  forall x, sums_over D vars (fun y => fun_of a y f ca r * fun_of b y f cb r * fun_of e y f ce r) x (k f ca cb ce r).
Proof.
  intros [Ba Ua] [Bb Ub] [Be Ue] Sa Sb Se Fa Fb Fe EX E f ca cb ce r Pa Pb Pe ND HV x.
  unfold triple_product_tensor in E. destruct (tp_ok a b e) eqn:Hok; [|discriminate]. injection E as <-.
  assert (triple_ok Rr (fits_triple D) a b e) as PO.
  { constructor; auto; try now apply built_wf. rewrite Forall_forall in Fa, Fb, Fe. intros la lb le A B C G H. split; [|split; [|split]]; auto. }
  apply (sums_over_ext D vars (fun y => tp3 (Lmix3 y) a b e f ca cb ce r)).
  { intros y H _. apply (mix3_some Rr (fits_triple D)); auto. intros v Hv. apply H. now apply HV. }
  rewrite <- (mix3_nan Rr (fits_triple D) a b e PO f ca cb ce r Pa Pb Pe (set_nan vars x)) by (intros v Hv; now apply set_nan_In, HV).
  apply (sums_over_nan D (fun y => tp3 (Lmix3 y) a b e f ca cb ce r) (fun v => In v (nthq (skel a) f))); auto.
  - intros v y Hv. apply (mix3_step Rr); auto.
  - intros v Hv. now apply HV.
Qed.
