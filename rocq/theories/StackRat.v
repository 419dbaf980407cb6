(** RatSPN: construction, value, normalisation. *)
From Coq Require Import List Arith Bool Reals Lia Lra Permutation.
From Verif Require Import Base ScopeModel ScopeProofs CircuitModel CircuitSpec CircuitBasics CircuitEval Integral CircuitMarg CircuitProps
  SampleModel EmModel SplitModel SplitProofs LayerModel LayerSpec LayerProofs FactorModel FactorProofs FactorTop
  StackModel StackSpec StackProofs StackDist StackTop.
Import ListNotations.
Local Open Scope R_scope.

(** ** what check_shapes accepts for a two-part split *)
Lemma odd_mod C : (C mod 2 <> 0)%nat -> exists h, C = (2 * h + 1)%nat /\ (C / 2 = h)%nat /\ (C mod 2 = 1)%nat.
Proof.
  intros H. exists (C / 2)%nat. pose proof (Nat.div_mod C 2 ltac:(lia)). pose proof (Nat.mod_upper_bound C 2 ltac:(lia)). lia.
Qed.
Lemma pow2_not_odd j h : (2 ^ j = 2 * h + 1)%nat -> j = 0%nat.
Proof. destruct j as [|j]; [reflexivity|]. cbn [Nat.pow]. lia. Qed.
Lemma ew_check_pow j C : (0 < C)%nat -> ew_check (get_out_shapes 2 (2 ^ j) C) = negb (Nat.eqb C 3 && Nat.leb 1 j).
Proof.
  intros HC. unfold get_out_shapes. destruct (Nat.eqb_spec (C mod 2) 0) as [E|E].
  - assert (C <> 3)%nat by (intros ->; discriminate E). destruct (Nat.eqb_spec C 3) as [E3|_]; [contradiction|]. cbn [andb negb].
    unfold ew_check. cbn [repeat forallb hd fst snd]. now rewrite !Nat.eqb_refl.
  - destruct (odd_mod C E) as (h & EC & Eh & Em). rewrite Eh, Em. cbn [Nat.sub repeat app]. unfold ew_check.
    cbn [forallb hd fst snd map]. rewrite !Nat.eqb_refl. cbn [andb].
    assert (PJ : (2 ^ j)%nat = 1%nat <-> j = 0%nat).
    { destruct j as [|j]; [cbn; tauto|]. cbn [Nat.pow]. lia. }
    assert (HJ : (2 ^ j)%nat <> C \/ j = 0%nat).
    { destruct (Nat.eq_dec (2 ^ j) C) as [E2|]; [right|now left]. apply (pow2_not_odd j h). lia. }
    destruct (Nat.eqb_spec C 3) as [E3|N3].
    + assert (h = 1)%nat by lia. subst h. rewrite E3 in *. cbn [filter]. change (Nat.eqb 1 1) with true. cbn [negb].
      destruct j as [|j].
      * reflexivity.
      * assert (2 ^ S j <> 3)%nat by (destruct HJ; [assumption|discriminate]). assert (2 ^ S j <> 1)%nat by (intros Q; apply PJ in Q; discriminate).
        destruct (Nat.eqb_spec 3 (2 ^ S j)) as [Q|_]; [lia|]. destruct (Nat.eqb_spec (2 ^ S j) 1) as [Q|_]; [contradiction|].
        cbn [negb filter length Nat.eqb andb orb all_same forallb hd]. unfold all_same. cbn [forallb hd]. rewrite Nat.eqb_refl. 
        destruct (Nat.eqb_spec (2 ^ S j) 3) as [Q|_]; [contradiction|]. reflexivity.
    + cbn [andb negb]. assert (h <> 1)%nat by lia.
      assert (B : (negb (Nat.eqb (length (filter (fun n => negb (Nat.eqb n 1)) [h; 1%nat])) 0) && all_same (filter (fun n => negb (Nat.eqb n 1)) [h; 1%nat]))%bool = true).
      { cbn [filter]. destruct (Nat.eqb_spec h 1) as [Q|_]; [contradiction|]. cbn [negb filter]. change (Nat.eqb 1 1) with true. cbn [negb length Nat.eqb andb].
        unfold all_same. cbn [forallb hd]. now rewrite Nat.eqb_refl. }
      rewrite B. now rewrite !orb_true_r.
Qed.
Lemma outer_check_pow of C : (0 < C)%nat -> outer_check (get_out_shapes 2 of (C ^ 2)) = true.
Proof.
  intros HC. unfold get_out_shapes. set (Q := (C ^ 2)%nat). destruct (Nat.eqb_spec (Q mod 2) 0) as [E|E].
  - unfold outer_check. cbn [repeat map fst snd]. unfold all_same at 1. cbn [forallb hd]. now rewrite !Nat.eqb_refl.
  - destruct (odd_mod Q E) as (h & EC & Eh & Em). rewrite Eh, Em. cbn [Nat.sub repeat app]. unfold outer_check.
    assert (h <> 1)%nat.
    { intros ->. assert (E3 : (C * C = 3)%nat) by (unfold Q in EC; cbn [Nat.pow] in EC; lia).
      destruct (Nat.lt_ge_cases C 2) as [L|L]; [assert (C = 1)%nat by lia; subst C; discriminate E3|nia]. }
    assert (B : ones_but_one (map snd [(of, h); (Q, 1%nat)]) = true).
    { unfold ones_but_one. cbn [map snd length Nat.sub count_occ]. destruct (Nat.eq_dec h 1) as [|_]; [contradiction|].
      destruct (Nat.eq_dec 1 1); [reflexivity|contradiction]. }
    rewrite B. now rewrite !orb_true_r.
Qed.

Lemma pow_half j : (0 < j)%nat -> (2 ^ j)%nat = (2 ^ (j - 1) * 2)%nat.
Proof. intros H. destruct j; [lia|]. cbn [Nat.pow]. replace (S j - 1)%nat with j by lia. lia. Qed.
Lemma pow_pos j : (0 < 2 ^ j)%nat.
Proof. pose proof (Nat.pow_nonzero 2 j). lia. Qed.

Lemma softmax_one (q : nat -> R) : softmax 1 q 0 = 1.
Proof. pose proof (softmax_sum 1 q ltac:(lia)) as E. cbn [bsum] in E. lra. Qed.

(** ** the levels *)
Section Rat.
Variables (c : rat_cfg) (p : rat_par) (k : split_kind) (C0 : nat).
Hypothesis (Hk : k <> ByIndex) (HC0 : (0 < C0)%nat) (Hroot : (0 < ra_root c)%nat) (Hregion : (0 < ra_region c)%nat)
  (Hreps : (0 < ra_reps c)%nat).
Definition rat_ch (l : nat) : nat := if Nat.eqb l 0 then C0 else if Nat.eqb l (ra_depth c) then ra_root c else ra_region c.
Definition rat_sh (l : nat) : shape := mkShape (2 ^ (ra_depth c - l)) (rat_ch l) (ra_reps c).
Lemma rat_ch_pos l : (0 < rat_ch l)%nat.
Proof. unfold rat_ch. destruct (Nat.eqb l 0); [exact HC0|]. destruct (Nat.eqb l (ra_depth c)); assumption. Qed.
Lemma rat_level_eq i : (i < ra_depth c)%nat -> rat_level c p k 2 i = [OProd (ra_outer c) k 2; OSum (rat_ch (S i)) (ra_reps c) (rp_sum p i)].
Proof.
  intros Hi. unfold rat_level, rat_ch. change (Nat.eqb (S i) 0) with false. do 3 f_equal. cbv iota.
  destruct (Nat.eqb_spec i 0) as [->|N].
  - destruct (Nat.eqb_spec (ra_depth c) 1) as [E|E]; [now rewrite E|]. destruct (Nat.eqb_spec 1 (ra_depth c)); [lia|reflexivity].
  - destruct (Nat.eqb_spec i (ra_depth c - 1)); destruct (Nat.eqb_spec (S i) (ra_depth c)); lia || reflexivity.
Qed.
Lemma fdiv i : (i < ra_depth c)%nat -> (2 ^ (ra_depth c - i) / 2 = 2 ^ (ra_depth c - S i))%nat.
Proof. intros Hi. rewrite pow_half by lia. rewrite Nat.div_mul by lia. f_equal. lia. Qed.

Definition accepts (i : nat) : Prop := ra_outer c = true \/ ~ (rat_ch i = 3%nat /\ (2 <= ra_depth c - i)%nat).
Lemma decl_prod i : (i < ra_depth c)%nat -> accepts i ->
  decl (OProd (ra_outer c) k 2) (rat_sh i) = Ok (semsh (OProd (ra_outer c) k 2) (rat_sh i)).
Proof.
  intros Hi HA. unfold decl, rat_sh. cbn [features channels repetitions]. pose proof (rat_ch_pos i) as PC.
  assert (F1 : Nat.eqb (2 ^ (ra_depth c - i)) 1 = false).
  { apply Nat.eqb_neq. rewrite pow_half by lia. pose proof (pow_pos (ra_depth c - i - 1)). lia. }
  rewrite F1. destruct (ra_outer c) eqn:EO; cbn [semsh features channels repetitions].
  - rewrite outer_check_pow by exact PC. do 2 f_equal. unfold outer_channels. rewrite iproduct_length. cbn [repeat nprod]. lia.
  - rewrite fdiv by exact Hi. rewrite ew_check_pow by exact PC.
    assert (B : (Nat.eqb (rat_ch i) 3 && Nat.leb 1 (ra_depth c - S i))%bool = false).
    { destruct HA as [HA|HA]; [congruence|]. destruct (Nat.eqb_spec (rat_ch i) 3) as [E|E]; [|reflexivity].
      destruct (Nat.leb_spec 1 (ra_depth c - S i)); [|reflexivity]. exfalso. apply HA. split; [exact E|lia]. }
    now rewrite B.
Qed.
Lemma level_good i : (i < ra_depth c)%nat -> accepts i ->
  goods (rat_level c p k 2 i) (rat_sh i) (rat_sh i) (rat_sh (S i)) /\ shs (rat_level c p k 2 i) (rat_sh i) = rat_sh (S i).
Proof.
  intros Hi HA. rewrite rat_level_eq by exact Hi. pose proof (rat_ch_pos i) as PC. pose proof (rat_ch_pos (S i)) as PC'.
  assert (ES : semsh (OSum (rat_ch (S i)) (ra_reps c) (rp_sum p i)) (semsh (OProd (ra_outer c) k 2) (rat_sh i)) = rat_sh (S i)).
  { destruct (ra_outer c); cbn [semsh rat_sh features channels repetitions]; unfold rat_sh; now rewrite fdiv. }
  split; [|exact ES].
  eapply g_cons with (ds' := semsh (OProd (ra_outer c) k 2) (rat_sh i)); [exact (decl_prod i Hi HA)|split; reflexivity| |exact I|split; reflexivity|].
  - split; [exact PC|]. split; [exact Hreps|]. split; [reflexivity|]. split; [exact Hk|]. split; [|reflexivity].
    exists (2 ^ (ra_depth c - i - 1))%nat. split; [apply pow_pos|]. cbn [rat_sh features]. apply pow_half. lia.
  - eapply g_cons with (ds' := rat_sh (S i)); [|split; reflexivity| |exact I|rewrite ES; split; reflexivity|rewrite ES; apply g_nil].
    + unfold decl. destruct (Nat.ltb_spec (rat_ch (S i)) 1); [lia|]. f_equal. rewrite <- ES. now destruct (ra_outer c).
    + split; [|split].
      * destruct (ra_outer c); cbn [semsh rat_sh channels]; nia.
      * destruct (ra_outer c); cbn [semsh rat_sh repetitions]; exact Hreps.
      * destruct (ra_outer c); reflexivity.
Qed.
Lemma levels_good l : (l <= ra_depth c)%nat -> (forall i, (i < l)%nat -> accepts i) ->
  goods (flat_map (rat_level c p k 2) (seq 0 l)) (rat_sh 0) (rat_sh 0) (rat_sh l) /\
  shs (flat_map (rat_level c p k 2) (seq 0 l)) (rat_sh 0) = rat_sh l.
Proof.
  induction l as [|l IH]; intros Hl HA.
  - cbn [seq flat_map shs]. split; [apply g_nil|reflexivity].
  - destruct IH as [G E]; [lia|intros; apply HA; lia|]. destruct (level_good l ltac:(lia) (HA l ltac:(lia))) as [G' E'].
    rewrite seq_S, flat_map_app. cbn [flat_map]. rewrite app_nil_r, plus_O_n. split.
    + eapply goods_app; [exact G|]. rewrite E. exact G'.
    + rewrite shs_app, E. exact E'.
Qed.
(** the values of level [l] *)
Lemma levels_sem P l : (l <= ra_depth c)%nat -> (forall i, (i < l)%nat -> accepts i) -> forall f o r, in_shape (rat_sh l) f o r ->
  sems (flat_map (rat_level c p k 2) (seq 0 l)) (rat_sh 0) P f o r
  = region (ra_depth c) (ra_outer c) k rat_ch (rp_sum p) P l f o r.
Proof.
  induction l as [|l IH]; intros Hl HA f o r IN; [reflexivity|].
  assert (IH' := IH ltac:(lia) (fun i Hi => HA i ltac:(lia))).
  rewrite seq_S, flat_map_app. cbn [flat_map]. rewrite app_nil_r, plus_O_n, sems_app.
  rewrite (proj2 (levels_good l ltac:(lia) (fun i Hi => HA i ltac:(lia)))).
  rewrite rat_level_eq by lia. cbn [sems region].
  destruct IN as (If & Io & Ir). cbn [rat_sh features channels repetitions] in If, Io, Ir.
  pose proof (rat_ch_pos l) as PC.
  assert (IN : forall i q, (i < 2)%nat -> (q < rat_ch l)%nat -> in_shape (rat_sh l) (in_feature k (2 ^ (ra_depth c - S l)) 2 f i) q r).
  { intros i q Hi Hq. split; [|split; [exact Hq|exact Ir]]. cbn [rat_sh features].
    rewrite (pow_half (ra_depth c - l)) by lia. replace (ra_depth c - l - 1)%nat with (ra_depth c - S l)%nat by lia. now apply in_feature_lt. }
  assert (EC : forall i, (i < 2)%nat -> in_feature k (2 ^ (ra_depth c - S l)) 2 f i = child k (2 ^ (ra_depth c - S l)) f i).
  { intros i Hi. destruct k; cbn [in_feature child]; [reflexivity|lia|contradiction]. }
  destruct (ra_outer c); cbn [sem semsh rat_sh features channels repetitions]; rewrite fdiv by lia.
  - apply bsum_ext. intros i Hi. f_equal. rewrite <- !EC by lia.
    assert (i / rat_ch l < rat_ch l)%nat by (apply Nat.div_lt_upper_bound; lia). assert (i mod rat_ch l < rat_ch l)%nat by (apply Nat.mod_upper_bound; lia).
    rewrite !IH' by (apply IN; lia || assumption). reflexivity.
  - apply bsum_ext. intros i Hi. f_equal. rewrite <- !EC by lia. rewrite !IH' by (apply IN; lia || assumption). reflexivity.
Qed.

(** the mixing layer and the root *)
Definition rat_top : list op := OMix (ra_root c) (ra_reps c) (rp_mix p) :: (if Nat.ltb 1 (ra_root c) then [OSum 1 1 (rp_root p)] else []).
Lemma rat_ch_depth : (0 < ra_depth c)%nat -> rat_ch (ra_depth c) = ra_root c.
Proof. intros H. unfold rat_ch. destruct (Nat.eqb_spec (ra_depth c) 0); [lia|]. now rewrite Nat.eqb_refl. Qed.
Lemma top_good : (0 < ra_depth c)%nat ->
  goods rat_top (rat_sh (ra_depth c)) (rat_sh (ra_depth c)) (mkShape 1 1 (if Nat.ltb 1 (ra_root c) then 1 else ra_reps c)) /\
  shs rat_top (rat_sh (ra_depth c)) = mkShape 1 1 1.
Proof.
  intros Hd. unfold rat_top. pose proof (rat_ch_depth Hd) as E.
  assert (EF : rat_sh (ra_depth c) = mkShape 1 (ra_root c) (ra_reps c)).
  { unfold rat_sh. rewrite E, Nat.sub_diag. reflexivity. }
  rewrite EF. set (s := mkShape 1 (ra_root c) (ra_reps c)).
  assert (DM : decl (OMix (ra_root c) (ra_reps c) (rp_mix p)) s = Ok s).
  { unfold decl, s. cbn [features channels repetitions]. destruct (Nat.ltb_spec (ra_root c) 1); [lia|]. now rewrite Nat.eqb_refl. }
  destruct (Nat.ltb_spec 1 (ra_root c)) as [L|L].
  - split; [|reflexivity].
    eapply g_cons with (ds' := s); [exact DM|split; reflexivity|repeat split; assumption|reflexivity|split; reflexivity|].
    eapply g_cons with (ds' := mkShape 1 1 1); [reflexivity|split; reflexivity| |exact I|split; reflexivity|apply g_nil].
    split; [exact Hroot|]. split; [cbn; lia|reflexivity].
  - assert (R1 : ra_root c = 1%nat) by lia. split; [|cbn [shs semsh s features channels repetitions]; now rewrite R1].
    eapply g_cons with (ds' := s); [exact DM|split; reflexivity|repeat split; assumption|reflexivity|split; reflexivity|].
    replace (mkShape 1 1 (ra_reps c)) with s by (unfold s; now rewrite R1). apply g_nil.
Qed.
Lemma top_sem P : (0 < ra_depth c)%nat ->
  sems rat_top (rat_sh (ra_depth c)) P 0%nat 0%nat 0%nat
  = mixed (ra_root c) (ra_reps c) (rp_mix p 0%nat) (fun j => rp_root p 0%nat j 0%nat 0%nat) (fun q r => P 0%nat q r).
Proof.
  intros Hd. unfold rat_top, mixed. destruct (Nat.ltb_spec 1 (ra_root c)) as [L|L].
  - cbn [sems sem semsh rat_sh features channels repetitions]. reflexivity.
  - assert (R1 : ra_root c = 1%nat) by lia. rewrite R1. cbn [sems sem bsum]. rewrite softmax_one. ring.
Qed.
End Rat.
