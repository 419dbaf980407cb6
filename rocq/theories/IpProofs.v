(** The inner-product recursion computes the integral of the product. *)
From Coq Require Import List Arith ZArith Bool Reals Lia Lra Sorted.
From Verif Require Import Base ScopeModel ScopeProofs CircuitModel CircuitBasics CircuitEval CircuitSpec CircuitMarg Integral
  LeafModel LeafSpec LeafProofs LeafTop SignedModel SignedSpec SignedProofs LipProofs.
Import ListNotations.
Local Open Scope R_scope.

Lemma sorted_ext l : forall l', StronglySorted lt l -> StronglySorted lt l' -> (forall v, In v l <-> In v l') -> l = l'.
Proof.
  induction l as [|a l IH]; intros [|b l'] S S' H; auto.
  - exfalso. apply (H b). now left.
  - exfalso. apply (H a). now left.
  - apply StronglySorted_inv in S, S'. destruct S as [S F], S' as [S' F']. rewrite Forall_forall in F, F'.
    assert (a = b) as ->.
    { destruct (proj1 (H a) (or_introl eq_refl)) as [|A]; [congruence|].
      destruct (proj2 (H b) (or_introl eq_refl)) as [|B]; [congruence|]. apply F in B. apply F' in A. lia. }
    f_equal. apply IH; auto. intros v. split; intros Hv.
    + destruct (proj1 (H v) (or_intror Hv)) as [E|]; [|assumption]. subst. apply F in Hv. lia.
    + destruct (proj2 (H v) (or_intror Hv)) as [E|]; [|assumption]. subst. apply F' in Hv. lia.
Qed.

(** one step of the two recursions *)
Lemma as_sum_inv m c w : as_sum m = Some (c, w) ->
  skel m = MSum (skel c) (schan m) (repetitions (out_shape (skel m))) (match m with SSum _ _ _ lg => lg | _ => fun _ _ _ _ => 0 end) /\
  sleaves m = sleaves c /\
  forall x f o r, fun_of m x f o r = bsum (schan c) (fun i => w f i o r * fun_of c x f i r).
Proof. destruct m; try discriminate; cbn [as_sum]; intros [= <- <-]; repeat split. Qed.

Lemma as_sum_ip_ok a b : ip_ok a b = true -> match a with SSum _ _ _ _ | SSigned _ _ _ _ => True | _ => False end ->
  exists c wa d wb, as_sum a = Some (c, wa) /\ as_sum b = Some (d, wb) /\ ip_ok c d = true /\
  forall L, ip2 L a b = sum_rule (schan c) (schan d) wa wb (ip2 L c d).
Proof.
  intros H K. destruct a as [|c co rr lg|c co rr w| |]; try destruct K; cbn [ip_ok] in H; apply andb_true_iff in H; destruct H as [_ H];
    destruct (as_sum b) as [[d wb]|] eqn:E; try discriminate; do 4 eexists; (split; [reflexivity|split; [reflexivity|split; [exact H|]]]);
    intros L; cbn [ip2]; rewrite E; reflexivity.
Qed.

Lemma ip_ok_header a b : ip_ok a b = true -> same_header a b = true.
Proof. destruct a; cbn [ip_ok]; intros H; apply andb_true_iff in H; tauto. Qed.

Lemma same_header_inv a b : same_header a b = true ->
  (forall v, In v (query (scope_of (skel a))) <-> In v (query (scope_of (skel b)))) /\ sfeat a = sfeat b.
Proof.
  unfold same_header. rewrite !andb_true_iff, !Nat.eqb_eq. intros [[H1 H2] _]. split; [|assumption].
  apply scope_eqb_spec in H1. apply H1.
Qed.

Lemma ip_ok_cat2 sc cs sc' ds : ip_ok (SCat true sc cs) (SCat true sc' ds) = true ->
  forall c d, In c cs -> In d ds -> ip_ok c d = true.
Proof.
  cbn [ip_ok]. rewrite !andb_true_iff. intros [_ [_ H]] c d Hc Hd. rewrite forallb_forall in H.
  specialize (H (ip_ok c) (in_map ip_ok cs c Hc)). rewrite forallb_forall in H. now apply H.
Qed.
Lemma ip_ok_cat1 sc cs sc' ds : ip_ok (SCat false sc cs) (SCat false sc' ds) = true ->
  Forall2 (fun c d => ip_ok c d = true) cs ds.
Proof.
  cbn [ip_ok]. rewrite !andb_true_iff, Nat.eqb_eq. intros [_ [_ [E H]]]. revert ds E H.
  induction cs as [|c cs IH]; intros [|d ds] E H; cbn in E; try lia; constructor.
  - cbn in H. apply andb_true_iff in H. tauto.
  - apply IH; [lia|]. cbn in H. apply andb_true_iff in H. tauto.
Qed.
Lemma ip_ok_cat_inv d2 sc cs b : ip_ok (SCat d2 sc cs) b = true -> exists sc' ds, b = SCat d2 sc' ds.
Proof.
  cbn [ip_ok]. rewrite andb_true_iff. intros [_ H]. destruct b as [| | |d2' sc' ds|]; try discriminate.
  apply andb_true_iff in H. destruct H as [H _]. apply Bool.eqb_prop in H. subst. eauto.
Qed.

(** the two circuits map their output features to the same variables *)
Lemma fts_eq a : forall b, ip_ok a b = true -> wf (skel a) -> wf (skel b) -> sorted_leaves a -> sorted_leaves b ->
  fts (skel a) = fts (skel b).
Proof.
  unfold sorted_leaves.
  induction a as [l|c co rr lg IH|c co rr w IH|d2 sc cs IH|c IH] using smod_ind'; intros b H Wa Wb Sa Sb.
  - pose proof (ip_ok_header _ _ H) as Hd. apply same_header_inv in Hd. destruct Hd as [Hq _].
    cbn [ip_ok] in H. apply andb_true_iff in H. destruct H as [_ H]. destruct b as [l'| | | |]; try discriminate.
    cbn in Hq |- *. f_equal. apply sorted_ext; auto; [now inversion Sa|now inversion Sb].
  - destruct (as_sum_ip_ok _ _ H I) as (c' & wa & d & wb & E1 & E2 & Hok & _). cbn in E1. injection E1 as <- <-.
    destruct (as_sum_inv _ _ _ E2) as (K1 & K2 & _). rewrite K1 in Wb |- *. cbn [skel fts wf] in *. rewrite K2 in Sb.
    apply IH; tauto.
  - destruct (as_sum_ip_ok _ _ H I) as (c' & wa & d & wb & E1 & E2 & Hok & _). cbn in E1. injection E1 as <- <-.
    destruct (as_sum_inv _ _ _ E2) as (K1 & K2 & _). rewrite K1 in Wb |- *. cbn [skel fts wf] in *. rewrite K2 in Sb.
    apply IH; tauto.
  - destruct (ip_ok_cat_inv _ _ _ _ H) as (sc' & ds & ->).
    pose proof (wf_scat _ _ _ Wa) as Wc. pose proof (wf_scat _ _ _ Wb) as Wd.
    apply Forall_leaves_cat in Sa, Sb. cbn [skel fts]. destruct d2.
    + assert (cs <> [] /\ ds <> []) as [Nc Nd].
      { cbn in Wa, Wb. destruct Wa as [A _], Wb as [B _]. split; intros ->; [now apply A|now apply B]. }
      destruct cs as [|c cs]; [congruence|]. destruct ds as [|d ds]; [congruence|]. cbn [map hd].
      apply (Forall_inv IH); try now apply Forall_inv in Wc, Wd, Sa, Sb.
      apply (ip_ok_cat2 _ _ _ _ H); now left.
    + apply ip_ok_cat1 in H. rewrite !map_map. f_equal. clear Wa Wb. revert H Wd Sb. revert ds. induction cs as [|c cs IHc]; intros ds H Wd Sb.
      * inversion H. reflexivity.
      * inversion H as [|? d ? ds' H1 H2]; subst. cbn [map]. inversion IH; inversion Wc; inversion Wd; inversion Sa; inversion Sb; subst.
        f_equal; auto.
  - cbn [ip_ok] in H. apply andb_true_iff in H. destruct H as [_ H]. destruct b as [| | | |d]; try discriminate.
    cbn in Wa, Wb, Sa, Sb |- *. f_equal. f_equal. apply IH; auto.
Qed.

(** ** induction over the pairs of positions the recursion visits *)
Section visits.
Variable Rr : nat.
Variable Q : sleaf -> sleaf -> Prop.
Variable P : smod -> smod -> nat -> nat -> nat -> nat -> Prop.

Record pair_ok (a b : smod) : Prop := {
  po_ip : ip_ok a b = true; po_wa : wf (skel a); po_wb : wf (skel b);
  po_ua : uniform Rr (skel a); po_ub : uniform Rr (skel b);
  po_sa : sorted_leaves a; po_sb : sorted_leaves b;
  po_q : forall la lb, In la (sleaves a) -> In lb (sleaves b) -> query (sl_scope la) = query (sl_scope lb) -> Q la lb }.

Hypothesis HL : forall la lb f ca cb r, pair_ok (SLeaf la) (SLeaf lb) -> slip_ok la lb = true -> Q la lb ->
  query (sl_scope la) = query (sl_scope lb) -> sl_rep la = Rr -> sl_rep lb = Rr ->
  (f < length (query (sl_scope la)))%nat -> (ca < sl_ch la)%nat -> (cb < sl_ch lb)%nat -> (r < Rr)%nat ->
  P (SLeaf la) (SLeaf lb) f ca cb r.
Hypothesis HS : forall a b c wa d wb f ca cb r, pair_ok a b -> pair_ok c d -> as_sum a = Some (c, wa) -> as_sum b = Some (d, wb) ->
  (forall L, ip2 L a b = sum_rule (schan c) (schan d) wa wb (ip2 L c d)) ->
  pos_ok Rr a f ca r -> pos_ok Rr b f cb r ->
  (forall i j, (i < schan c)%nat -> (j < schan d)%nat -> P c d f i j r) -> P a b f ca cb r.
Hypothesis HC : forall a b c d f ca cb r f' ca' cb', pair_ok a b -> pair_ok c d ->
  (forall L, ip2 L a b f ca cb r = ip2 L c d f' ca' cb' r) ->
  (forall x, fun_of a x f ca r = fun_of c x f' ca' r) -> (forall x, fun_of b x f cb r = fun_of d x f' cb' r) ->
  nthq (skel a) f = nthq (skel c) f' ->
  P c d f' ca' cb' r -> P a b f ca cb r.
Hypothesis HP : forall c d ca cb r, pair_ok (SProduct c) (SProduct d) -> pair_ok c d -> sfeat c = sfeat d ->
  (forall f, (f < sfeat c)%nat -> pos_ok Rr c f ca r /\ pos_ok Rr d f cb r /\ P c d f ca cb r) -> P (SProduct c) (SProduct d) 0 ca cb r.

Lemma fts_pick sc cs f m k : Forall (fun c => wf (skel c)) cs -> pick (sdim false) cs f = Some (m, k) ->
  nthq (skel (SCat false sc cs)) f = nthq (skel m) k.
Proof.
  unfold nthq. cbn [skel fts]. rewrite map_map. revert f. induction cs as [|c cs IH]; cbn [pick map concat]; intros f W E; [discriminate|].
  inversion W as [|? ? W1 W2]; subst. pose proof (wf_len _ (wf_wf1 _ W1)) as L.
  rewrite nth_concat_split, L. change (features (out_shape (skel c))) with (sdim false c).
  destruct (Nat.ltb f (sdim false c)); [now injection E as <- <-|]. now apply IH.
Qed.

Lemma visit : forall a b, pair_ok a b -> forall f ca cb r, pos_ok Rr a f ca r -> pos_ok Rr b f cb r -> P a b f ca cb r.
Proof using HL HS HC HP.
  induction a as [l|c co rr lg IH|c co rr w IH|d2 sc cs IH|c IH] using smod_ind'; intros b PO f ca cb r Pa Pb; pose proof PO as [H Wa Wb Ua Ub Sa Sb HQ].
  - pose proof H as H'. cbn [ip_ok] in H'. apply andb_true_iff in H'. destruct H' as [_ H']. destruct b as [l'| | | |]; try discriminate.
    pose proof (fts_eq _ _ H Wa Wb Sa Sb) as EF. cbn in EF.
    assert (query (sl_scope l) = query (sl_scope l')) as EQ.
    { assert (forall l1 l2 : list nat, map (fun v => [v]) l1 = map (fun v => [v]) l2 -> l1 = l2) as Inj.
      { induction l1 as [|? ? I1]; intros [|? ?] E; cbn in E; try discriminate; auto. injection E as -> E. f_equal. now apply I1. }
      now apply Inj. }
    destruct Pa, Pb. cbn in *. apply HL; auto.
  - assert (exists c' wa d wb, as_sum (SSum c co rr lg) = Some (c', wa) /\ as_sum b = Some (d, wb) /\ ip_ok c' d = true /\
      forall L, ip2 L (SSum c co rr lg) b = sum_rule (schan c') (schan d) wa wb (ip2 L c' d)) as (c' & wa & d & wb & E1 & E2 & Hok & E3)
      by exact (as_sum_ip_ok _ _ H I).
    destruct (as_sum_inv _ _ _ E1) as (J1 & J2 & _). destruct (as_sum_inv _ _ _ E2) as (K1 & K2 & _).
    unfold sorted_leaves in *. rewrite J2 in Sa, HQ. rewrite K2 in Sb, HQ.
    assert (c' = c) as -> by (cbn in E1; congruence).
    rewrite J1 in Wa, Ua. rewrite K1 in Wb, Ub. cbn [wf uniform] in Wa, Ua, Wb, Ub.
    assert (pair_ok c d) as PO' by (constructor; auto; tauto).
    apply (HS _ _ c wa d wb); auto. intros i j Hi Hj.
    pose proof Pa as [Pa1 Pa2 Pa3]. pose proof Pb as [Pb1 Pb2 Pb3]. unfold sfeat in Pa1, Pb1. rewrite J1 in Pa1. rewrite K1 in Pb1.
    apply IH; auto; constructor; auto.
  - assert (exists c' wa d wb, as_sum (SSigned c co rr w) = Some (c', wa) /\ as_sum b = Some (d, wb) /\ ip_ok c' d = true /\
      forall L, ip2 L (SSigned c co rr w) b = sum_rule (schan c') (schan d) wa wb (ip2 L c' d)) as (c' & wa & d & wb & E1 & E2 & Hok & E3)
      by exact (as_sum_ip_ok _ _ H I).
    destruct (as_sum_inv _ _ _ E1) as (J1 & J2 & _). destruct (as_sum_inv _ _ _ E2) as (K1 & K2 & _).
    unfold sorted_leaves in *. rewrite J2 in Sa, HQ. rewrite K2 in Sb, HQ.
    assert (c' = c) as -> by (cbn in E1; congruence).
    rewrite J1 in Wa, Ua. rewrite K1 in Wb, Ub. cbn [wf uniform] in Wa, Ua, Wb, Ub.
    assert (pair_ok c d) as PO' by (constructor; auto; tauto).
    apply (HS _ _ c wa d wb); auto. intros i j Hi Hj.
    pose proof Pa as [Pa1 Pa2 Pa3]. pose proof Pb as [Pb1 Pb2 Pb3]. unfold sfeat in Pa1, Pb1. rewrite J1 in Pa1. rewrite K1 in Pb1.
    apply IH; auto; constructor; auto.
  - destruct (ip_ok_cat_inv _ _ _ _ H) as (sc' & ds & ->).
    pose proof (wf_scat _ _ _ Wa) as Wc. pose proof (wf_scat _ _ _ Wb) as Wd.
    pose proof (proj1 (map_fix_uniform Rr cs) Ua) as Uc. pose proof (proj1 (map_fix_uniform Rr ds) Ub) as Ud.
    pose proof (proj1 (Forall_leaves_cat _ d2 sc cs) Sa) as Sc. pose proof (proj1 (Forall_leaves_cat _ d2 sc' ds) Sb) as Sd.
    rewrite Forall_forall in IH, Wc, Wd, Uc, Ud, Sc, Sd.
    destruct (cat_pos Rr d2 sc cs f ca r Wa Pa) as (m & k & Hp & Hin & _ & Pm).
    destruct (cat_pos Rr d2 sc' ds f cb r Wb Pb) as (m' & k' & Hp' & Hin' & _ & Pm').
    assert (forall la lb, In la (sleaves m) -> In lb (sleaves m') -> query (sl_scope la) = query (sl_scope lb) -> Q la lb) as HQ'.
    { intros la lb A B. apply HQ; rewrite sleaves_cat; apply in_concat; eexists; (split; [apply in_map|]); eassumption. }
    assert (ip_ok m m' = true /\ (if d2 then True else k = k')
            /\ forall L, ip2 L (SCat d2 sc cs) (SCat d2 sc' ds) f ca cb r
                         = ip2 L m m' (if d2 then f else k) (if d2 then k else ca) (if d2 then k' else cb) r) as (Hok & Ek & EL).
    { destruct d2.
      - split; [now apply (ip_ok_cat2 _ _ _ _ H)|split; [trivial|]]. intros L. cbn [ip2].
        rewrite (pick_map (sdim true) fst (fun c => (sdim true c, ip2 L c))) by reflexivity. now rewrite Hp, Hp'.
      - apply ip_ok_cat1 in H.
        assert (Forall2 (fun c d => sdim false c = sdim false d) cs ds) as Hdim.
        { clear - H. induction H as [|c d cs ds H1 H2 IHf]; constructor; auto.
          apply ip_ok_header, same_header_inv in H1. apply H1. }
        assert (exists q, pick (fun p => sdim false (fst p)) (combine cs ds) f = Some (q, k) /\ fst q = m /\ snd q = m' /\ k = k' /\ ip_ok m m' = true) as (q & E1 & E2 & E3 & E4 & E5).
        { clear - H Hdim Hp Hp'. revert f Hp Hp'. induction H as [|c d cs ds H1 H2 IHf]; intros f Hp Hp'; [discriminate|].
          inversion Hdim; subst. cbn [combine pick fst] in *. replace (sdim false d) with (sdim false c) in Hp' by assumption.
          destruct (Nat.ltb f (sdim false c)); [|now apply IHf].
          injection Hp as <- <-. injection Hp' as <- <-. eexists. split; [reflexivity|]. auto. }
        split; [assumption|split; [assumption|]]. intros L. cbn [ip2].
        rewrite combine_map_l.
        rewrite (pick_map (fun p => sdim false (fst p)) (fun p => fst (fst p)) (fun p => ((sdim false (fst p), ip2 L (fst p)), snd p))) by reflexivity.
        rewrite E1. cbn. now rewrite E2, E3. }
    assert (pair_ok m m') as PO' by (constructor; auto; [now apply Sc|now apply Sd]).
    apply (HC _ _ m m' f ca cb r (if d2 then f else k) (if d2 then k else ca) (if d2 then k' else cb)); auto.
    + intros x. rewrite (fun_cat d2 sc cs x f ca r m k Hp). now destruct d2.
    + intros x. rewrite (fun_cat d2 sc' ds x f cb r m' k' Hp'). destruct d2; [reflexivity|]. now rewrite Ek.
    + destruct d2; [|apply (fts_pick sc); auto; now apply Forall_forall].
      unfold nthq. cbn [skel fts]. destruct cs as [|c0 cs]; [destruct Hin|]. cbn [map hd].
      assert (In c0 (c0 :: cs)) as H0 by now left.
      assert (fts (skel c0) = fts (skel m')) as F1.
      { apply fts_eq; [now apply (ip_ok_cat2 _ _ _ _ H)|now apply Wc|now apply Wd|now apply Sc|now apply Sd]. }
      assert (fts (skel m) = fts (skel m')) as F2.
      { apply fts_eq; [assumption|now apply Wc|now apply Wd|now apply Sc|now apply Sd]. }
      now rewrite F1, F2.
    + apply IH; auto. destruct d2; [assumption|]. now rewrite Ek.
  - pose proof H as H'. cbn [ip_ok] in H'. apply andb_true_iff in H'. destruct H' as [_ H']. destruct b as [| | | |d]; try discriminate.
    unfold sorted_leaves in *. cbn in Wa, Wb, Ua, Ub, Sa, Sb, HQ.
    assert (pair_ok c d) as PO' by (constructor; auto).
    pose proof (ip_ok_header _ _ H') as Hd. apply same_header_inv in Hd. destruct Hd as [_ Hd].
    destruct Pa as [P1 P2 P3], Pb as [P4 P5 P6]. cbn in P1. replace f with 0%nat by (unfold sfeat in P1; cbn in P1; lia).
    apply HP; auto. intros g Hg.
    assert (pos_ok Rr c g ca r) as X1 by (constructor; auto).
    assert (pos_ok Rr d g cb r) as X2 by (constructor; auto; now rewrite <- Hd).
    split; [assumption|split; [assumption|]]. now apply IH.
Qed.
End visits.

(** ** missing values stand for summed-out variables *)
Definition Lmix (x : row) (la lb : sleaf) : T4 := fun f ca cb r =>
  match x (nth f (query (sl_scope la)) 0%nat) with
  | None => slipv la lb f ca cb r
  | Some a => leaf_at la f ca r a * leaf_at lb f cb r a
  end.

Lemma ip2_product L c d f ca cb r : ip2 L (SProduct c) (SProduct d) f ca cb r = bprod (sfeat c) (fun g => ip2 L c d g ca cb r).
Proof. reflexivity. Qed.

Lemma nthq_sleaf l f : (f < length (query (sl_scope l)))%nat -> nthq (skel (SLeaf l)) f = [nth f (query (sl_scope l)) 0%nat].
Proof. intros H. cbn [skel]. now apply nthq_leaf. Qed.
Lemma nthq_as_sum m c w f : as_sum m = Some (c, w) -> nthq (skel m) f = nthq (skel c) f.
Proof. intros E. destruct (as_sum_inv _ _ _ E) as (K & _). unfold nthq. rewrite K. reflexivity. Qed.

Section mix.
Variable Rr : nat.
Variable Q : sleaf -> sleaf -> Prop.

(** all the feature's variables missing: the leaf table *)
Lemma mix_nan a b : pair_ok Rr Q a b -> forall f ca cb r, pos_ok Rr a f ca r -> pos_ok Rr b f cb r ->
  forall x, (forall v, In v (nthq (skel a) f) -> x v = None) -> ip2 (Lmix x) a b f ca cb r = ip2 slipv a b f ca cb r.
Proof.
  revert a b. apply (visit Rr Q (fun a b f ca cb r => forall x, (forall v, In v (nthq (skel a) f) -> x v = None) -> ip2 (Lmix x) a b f ca cb r = ip2 slipv a b f ca cb r)).
  - intros la lb f ca cb r _ _ _ _ _ _ Hf _ _ _ x H. cbn [ip2]. unfold Lmix. rewrite H; [reflexivity|]. rewrite nthq_sleaf by assumption. now left.
  - intros a b c wa d wb f ca cb r _ _ E1 E2 E3 _ _ IH x H. rewrite !E3. unfold sum_rule.
    apply bsum_ext. intros i Hi. apply bsum_ext. intros j Hj. rewrite IH; auto. now rewrite <- (nthq_as_sum _ _ _ f E1).
  - intros a b c d f ca cb r f' ca' cb' _ _ EL _ _ EN IH x H. rewrite !EL. apply IH. now rewrite <- EN.
  - intros c d ca cb r PO PO' _ IH x H. rewrite !ip2_product. apply bprod_ext. intros g Hg. apply IH; auto.
    intros v Hv. apply H. cbn [skel]. apply nthq_product; [apply PO'|]. eauto.
Qed.

(** none missing: the product of the two functions *)
Lemma mix_some a b : pair_ok Rr Q a b -> forall f ca cb r, pos_ok Rr a f ca r -> pos_ok Rr b f cb r ->
  forall x, (forall v, In v (nthq (skel a) f) -> x v <> None) -> ip2 (Lmix x) a b f ca cb r = fun_of a x f ca r * fun_of b x f cb r.
Proof.
  revert a b. apply (visit Rr Q (fun a b f ca cb r => forall x, (forall v, In v (nthq (skel a) f) -> x v <> None) -> ip2 (Lmix x) a b f ca cb r = fun_of a x f ca r * fun_of b x f cb r)).
  - intros la lb f ca cb r _ _ _ EQ _ _ Hf _ _ _ x H. cbn [ip2 fun_of]. unfold Lmix, leaf_fun. rewrite <- EQ.
    specialize (H (nth f (query (sl_scope la)) 0%nat)). rewrite nthq_sleaf in H by assumption.
    destruct (x (nth f (query (sl_scope la)) 0%nat)); [reflexivity|]. exfalso. apply H; [now left|reflexivity].
  - intros a b c wa d wb f ca cb r _ _ E1 E2 E3 _ _ IH x H. rewrite E3. unfold sum_rule.
    destruct (as_sum_inv _ _ _ E1) as (_ & _ & F1). destruct (as_sum_inv _ _ _ E2) as (_ & _ & F2). rewrite F1, F2.
    rewrite <- bsum_scal_r. apply bsum_ext. intros i Hi. rewrite <- bsum_scal. apply bsum_ext. intros j Hj.
    rewrite IH; auto; [ring|]. now rewrite <- (nthq_as_sum _ _ _ f E1).
  - intros a b c d f ca cb r f' ca' cb' _ _ EL EA EB EN IH x H. rewrite EL, EA, EB. apply IH. now rewrite <- EN.
  - intros c d ca cb r PO PO' EF IH x H. rewrite ip2_product. cbn [fun_of]. rewrite <- EF, <- bprod_mult. apply bprod_ext. intros g Hg.
    apply IH; auto. intros v Hv. apply H. cbn [skel]. apply nthq_product; [apply PO'|]. eauto.
Qed.

Lemma mix_local a b : pair_ok Rr Q a b -> forall f ca cb r, pos_ok Rr a f ca r -> pos_ok Rr b f cb r ->
  forall x y, (forall v, In v (nthq (skel a) f) -> x v = y v) -> ip2 (Lmix x) a b f ca cb r = ip2 (Lmix y) a b f ca cb r.
Proof.
  revert a b. apply (visit Rr Q (fun a b f ca cb r => forall x y, (forall v, In v (nthq (skel a) f) -> x v = y v) -> ip2 (Lmix x) a b f ca cb r = ip2 (Lmix y) a b f ca cb r)).
  - intros la lb f ca cb r _ _ _ _ _ _ Hf _ _ _ x y H. cbn [ip2]. unfold Lmix. rewrite H; [reflexivity|]. rewrite nthq_sleaf by assumption. now left.
  - intros a b c wa d wb f ca cb r _ _ E1 E2 E3 _ _ IH x y H. rewrite !E3. unfold sum_rule.
    apply bsum_ext. intros i Hi. apply bsum_ext. intros j Hj. rewrite (IH i j Hi Hj x y); auto. now rewrite <- (nthq_as_sum _ _ _ f E1).
  - intros a b c d f ca cb r f' ca' cb' _ _ EL _ _ EN IH x y H. rewrite !EL. apply IH. now rewrite <- EN.
  - intros c d ca cb r PO PO' _ IH x y H. rewrite !ip2_product. apply bprod_ext. intros g Hg. apply IH; auto.
    intros v Hv. apply H. cbn [skel]. apply nthq_product; [apply PO'|]. eauto.
Qed.
End mix.

Lemma slip_ok_some la lb f ca cb r : slip_ok la lb = true ->
  (f < length (query (sl_scope la)))%nat -> (ca < sl_ch la)%nat -> (cb < sl_ch lb)%nat -> (r < sl_rep la)%nat ->
  slip la lb f ca cb r = Some (slipv la lb f ca cb r).
Proof.
  unfold slip_ok, slipv. intros H Hf Ha Hb Hr.
  apply allb_true with (i := f) in H; [|assumption]. apply allb_true with (i := ca) in H; [|assumption].
  apply allb_true with (i := cb) in H; [|assumption]. apply allb_true with (i := r) in H; [|assumption].
  now destruct (slip la lb f ca cb r).
Qed.

Definition fits_pair D (la lb : sleaf) : Prop := sleaf_fits D la /\ sleaf_fits D lb /\ exact_leaves la lb.

(** summing out one variable *)
Lemma mix_step Rr D a b : pair_ok Rr (fits_pair D) a b -> forall f ca cb r, pos_ok Rr a f ca r -> pos_ok Rr b f cb r ->
  forall x v, In v (nthq (skel a) f) ->
  sums (D v) (fun t => ip2 (Lmix (upd x v (Some t))) a b f ca cb r) (ip2 (Lmix (upd x v None)) a b f ca cb r).
Proof.
  revert a b. apply (visit Rr (fits_pair D) (fun a b f ca cb r => forall x v, In v (nthq (skel a) f) ->
    sums (D v) (fun t => ip2 (Lmix (upd x v (Some t))) a b f ca cb r) (ip2 (Lmix (upd x v None)) a b f ca cb r))).
  - intros la lb f ca cb r _ Hok (F1 & F2 & EX) EQ Er Er' Hf Ha Hb Hr x v Hv. rewrite nthq_sleaf in Hv by assumption. destruct Hv as [<-|[]].
    cbn [ip2]. unfold Lmix at 2. rewrite upd_same.
    eapply sums_ext; [intros t; unfold Lmix; rewrite upd_same; reflexivity|].
    apply (slip_sums D); auto; try congruence. apply slip_ok_some; auto. now rewrite Er.
  - intros a b c wa d wb f ca cb r PO PO' E1 E2 E3 Pa Pb IH x v Hv. rewrite E3. unfold sum_rule.
    assert (0 < schan c)%nat as Cp by apply (wf_cpos _ (wf_wf1 _ (po_wa _ _ _ _ PO'))).
    assert (0 < schan d)%nat as Dp by apply (wf_cpos _ (wf_wf1 _ (po_wb _ _ _ _ PO'))).
    rewrite (nthq_as_sum _ _ _ f E1) in Hv.
    eapply sums_ext; [intros t; rewrite E3; unfold sum_rule; reflexivity|].
    pose proof (IH 0%nat 0%nat Cp Dp x v Hv) as S0.
    apply (sums_bsum _ _ _ _ _ _ S0). intros i Hi.
    apply (sums_bsum _ _ _ _ _ _ S0). intros j Hj.
    pose proof (sums_scal _ (wa f i ca r * wb f j cb r) _ _ (IH i j Hi Hj x v Hv)) as S1.
    replace (wa f i ca r * ip2 (Lmix (upd x v None)) c d f i j r * wb f j cb r)
      with (wa f i ca r * wb f j cb r * ip2 (Lmix (upd x v None)) c d f i j r) by ring.
    eapply sums_ext; [|exact S1]. intros t. cbn beta. ring.
  - intros a b c d f ca cb r f' ca' cb' _ _ EL _ _ EN IH x v Hv. rewrite EL.
    eapply sums_ext; [intros t; symmetry; apply EL|]. apply IH. now rewrite <- EN.
  - intros c d ca cb r PO PO' EF IH x v Hv. cbn [skel] in Hv. apply nthq_product in Hv; [|apply PO'].
    destruct Hv as (g & Hg & Hv). fold (sfeat c) in Hg. rewrite ip2_product, (bprod_isolate _ _ g Hg).
    eapply sums_ext; [intros t; symmetry; rewrite ip2_product, (bprod_isolate _ _ g Hg); reflexivity|].
    destruct (IH g Hg) as (P1 & P2 & IH1). specialize (IH1 x v Hv).
    set (K := bprod (sfeat c) (fun i => if Nat.eqb i g then 1 else ip2 (Lmix (upd x v None)) c d i ca cb r)).
    rewrite Rmult_comm. eapply sums_ext; [|apply (sums_scal (D v) K _ _ IH1)].
    intros t. cbn beta. rewrite Rmult_comm. f_equal. apply bprod_ext. intros i Hi.
    destruct (Nat.eqb_spec i g) as [->|Hn]; [reflexivity|].
    destruct (IH i Hi) as (Q1 & Q2 & _). apply (mix_local Rr (fits_pair D)); auto.
    intros u Hu. rewrite !upd_other; auto; intros ->;
      apply (wf_disj _ (wf_wf1 _ (po_wa _ _ _ _ PO')) i g Hi Hg Hn _ Hu Hv).
Qed.

Lemma sums_over_ext D vs (g h : row -> R) : forall x u,
  (forall y, (forall v, In v vs -> y v <> None) -> (forall v, ~ In v vs -> y v = x v) -> g y = h y) ->
  sums_over D vs g x u -> sums_over D vs h x u.
Proof.
  induction vs as [|v vs IH]; intros x u H; cbn [sums_over].
  - intros <-. symmetry. apply H; auto.
  - intros (k & H1 & H2). exists k. split; [|assumption]. intros t. apply IH; [|apply H1].
    intros y A B. apply H.
    + intros w [<-|Hw]; [|now apply A]. destruct (in_dec Nat.eq_dec v vs) as [I|I]; [now apply A|].
      rewrite B by assumption. rewrite upd_same. discriminate.
    + intros w Hw. rewrite B by (intros I; apply Hw; now right). apply upd_other. intros ->. apply Hw. now left.
Qed.

Lemma ip_integral Rr D a b k vars : constructed Rr a -> constructed Rr b -> sorted_leaves a -> sorted_leaves b ->
  Forall (sleaf_fits D) (sleaves a) -> Forall (sleaf_fits D) (sleaves b) ->
  (forall la lb, In la (sleaves a) -> In lb (sleaves b) -> query (sl_scope la) = query (sl_scope lb) -> exact_leaves la lb) ->
  inner_product_matrix a b = Ok k ->
  forall f ca cb r, pos_ok Rr a f ca r -> pos_ok Rr b f cb r ->
  NoDup vars -> (forall v, In v vars <-> In v (nthq (skel a) f)) ->
  forall x, sums_over D vars (fun y => fun_of a y f ca r * fun_of b y f cb r) x (k f ca cb r).
Proof.
  intros [Ba Ua] [Bb Ub] Sa Sb Fa Fb EX E f ca cb r Pa Pb ND HV x.
  unfold inner_product_matrix in E. destruct (ip_ok a b) eqn:Hok; [|discriminate]. injection E as <-.
  assert (pair_ok Rr (fits_pair D) a b) as PO.
  { constructor; auto; try now apply built_wf. rewrite Forall_forall in Fa, Fb. intros la lb A B C. split; [|split]; auto. }
  apply (sums_over_ext D vars (fun y => ip2 (Lmix y) a b f ca cb r)).
  { intros y H _. apply (mix_some Rr (fits_pair D)); auto. intros v Hv. apply H. now apply HV. }
  rewrite <- (mix_nan Rr (fits_pair D) a b PO f ca cb r Pa Pb (set_nan vars x)) by (intros v Hv; now apply set_nan_In, HV).
  apply (sums_over_nan D (fun y => ip2 (Lmix y) a b f ca cb r) (fun v => In v (nthq (skel a) f))); auto.
  - intros v y Hv. apply (mix_step Rr); auto.
  - intros v Hv. now apply HV.
Qed.
