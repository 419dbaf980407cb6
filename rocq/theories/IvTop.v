(** Interval evidence: circuits. *)
From Coq Require Import List Arith ZArith Bool Reals Lra Lia.
From Verif Require Import Base ScopeModel ScopeProofs CircuitModel CircuitBasics CircuitEval Integral CircuitMarg CircuitProps CellEval ExpUnique LeafModel LeafSpec LeafProofs LeafTop IvModel IvSpec IvProofs.
Import ListNotations.
Local Open Scope R_scope.

Lemma mk_iv_spec shl shh lo hi ev : mk_iv shl shh lo hi = Ok ev <->
  (exists B F, shl = [B; F] /\ shh = [B; F] /\ ev = mkIv B F lo hi /\
   forall b j x y, (b < B)%nat -> (j < F)%nat -> lo b j = Num x -> hi b j = Num y -> x <= y).
Proof.
  unfold mk_iv. destruct (list_eq_dec Nat.eq_dec shl shh) as [<-|N]; cbn [negb].
  - destruct shl as [|B [|F [|]]]; try (split; [discriminate|intros (? & ? & ? & _); discriminate]).
    destruct (allb B _) eqn:E.
    + split.
      * intros H. injection H as <-. exists B, F. repeat split; auto. intros b j x y Hb Hj Hx Hy.
        rewrite allb_true in E. specialize (E b Hb). rewrite allb_true in E. specialize (E j Hj). rewrite Hx, Hy in E.
        cbn in E. destruct (rle x y) eqn:R0; [now apply rle_spec|discriminate].
      * intros (B' & F' & E1 & _ & -> & _). injection E1 as <- <-. reflexivity.
    + split; [discriminate|]. intros (B' & F' & E1 & _ & -> & H). injection E1 as <- <-. exfalso.
      enough (allb B (fun b => allb F (fun j => if (isfinite (lo b j) && isfinite (hi b j))%bool then negb (fgt (lo b j) (hi b j)) else true)) = true) by congruence.
      apply allb_true. intros b Hb. apply allb_true. intros j Hj.
      destruct (lo b j) eqn:Lx, (hi b j) eqn:Hx; cbn; auto. rewrite (proj2 (rle_spec _ _) (H _ _ _ _ Hb Hj Lx Hx)). reflexivity.
  - split; [discriminate|]. intros (B & F & -> & -> & _). congruence.
Qed.

Section Box.
  Variables (D : nat -> domain) (fo : leaf -> fleaf) (ev : ivrow).

  Definition bnd (l : leaf) (f : nat) : fl * fl := ev (nth f (query (l_scope l)) 0%nat).
  Definition exactM (l : leaf) (f c r : nat) : lval :=
    lfrom (mass (fl_fam (fo l) f c r) (fst (bnd l f)) (snd (bnd l f))).
  Definition truncG (l : leaf) (f c r : nat) (a : R) : lval := if insideb (bnd l f) a then l_lp l f c r a else NInf.
  Definition got (l : leaf) (f c r : nat) : lval := get_ok (entry_iv (fo l) ev f c r).
  Definition cs := cscore exactM truncG.

  Lemma iv_loglik_ok m g : iv_loglik fo m ev = Ok g ->
    g = evalm got m /\ Forall (fun l => forall f c r, (f < length (query (fl_scope (fo l))))%nat -> (c < fl_ch (fo l))%nat -> (r < fl_rep (fo l))%nat ->
      is_ok (entry_iv (fo l) ev f c r) = true) (leaves_of m).
  Proof.
    unfold iv_loglik. destruct (forallb _ _) eqn:E; [|discriminate]. intros H. injection H as <-. split; [reflexivity|].
    apply Forall_forall. intros l Hl f c r Hf Hc Hr. rewrite forallb_forall in E. specialize (E l Hl). unfold leaf_iv in E.
    destruct (allb _ _) eqn:E2; [|discriminate].
    rewrite allb_true in E2. specialize (E2 f Hf). rewrite allb_true in E2. specialize (E2 c Hc). rewrite allb_true in E2. exact (E2 r Hr).
  Qed.

  Definition entries_ok (P : leaf -> nat -> nat -> nat -> Prop) (m : module) : Prop :=
    Forall (fun l => forall f c r, (f < length (query (l_scope l)))%nat -> (c < l_ch l)%nat -> (r < l_rep l)%nat -> P l f c r) (leaves_of m).

  Lemma entries m g : leaf_families D fo m -> iv_loglik fo m ev = Ok g ->
    entries_ok (fun l f c r => fam_ok (fl_fam (fo l) f c r) = true /\ fits (D (nth f (query (l_scope l)) 0%nat)) (fl_fam (fo l) f c r) /\
      (exists mode, l = fl_leaf (fo l) mode) /\ interval_capable (fl_fam (fo l) f c r) (bnd l f) /\
      let p := mass (fl_fam (fo l) f c r) (fst (bnd l f)) (snd (bnd l f)) in
      pr (got l f c r) = p \/ pr (got l f c r) = Rmax p eps40) m.
  Proof.
    intros LF H. destruct (iv_loglik_ok m g H) as [_ OK]. unfold leaf_families, entries_ok in *.
    rewrite Forall_forall in *. intros l Hl f c r Hf Hc Hr.
    destruct (LF l Hl) as [(mode & El) HF]. destruct (HF f c r Hf Hc Hr) as [A B].
    assert (l_scope l = fl_scope (fo l) /\ l_ch l = fl_ch (fo l) /\ l_rep l = fl_rep (fo l)) as (E1 & E2 & E3).
    { rewrite El at 1 3 5. cbn. auto. }
    rewrite E1 in Hf. rewrite E2 in Hc. rewrite E3 in Hr.
    pose proof (OK l Hl f c r Hf Hc Hr) as K.
    assert (entry_iv (fo l) ev f c r = fam_iv (fl_fam (fo l) f c r) (fst (bnd l f)) (snd (bnd l f))) as EE.
    { unfold entry_iv, bnd. now rewrite E1. }
    destruct (entry_iv (fo l) ev f c r) as [v|] eqn:EV; [|discriminate].
    symmetry in EE. pose proof (fam_iv_capable _ _ _ _ EE) as CP.
    destruct (fam_iv_mass _ _ _ A CP) as (v' & E' & PV). rewrite EE in E'. injection E' as <-.
    rewrite <- surjective_pairing in CP.
    split; [exact A|]. split; [exact B|]. split; [eauto|]. split; [exact CP|].
    cbn zeta. unfold got. rewrite EV. exact PV.
  Qed.

  Lemma capable_fam fm b : interval_capable fm b -> capable_family fm.
  Proof. destruct fm; cbn; auto. Qed.

  Lemma cells m g : leaf_families D fo m -> iv_loglik fo m ev = Ok g -> Forall (cell_sum exactM truncG D) (leaves_of m).
  Proof.
    intros LF H. pose proof (entries m g LF H) as E. unfold entries_ok in E. eapply Forall_impl; [|exact E].
    intros l Hl f c r Hf Hc Hr. destruct (Hl f c r Hf Hc Hr) as (A & B & (mode & El) & CP & _).
    pose proof (capable_fam _ _ CP) as CF.
    destruct (mass_spec _ _ (fst (bnd l f)) (snd (bnd l f)) CF A B) as (h & Hh & S).
    unfold exactM. rewrite pr_lfrom by (apply mass_nonneg; assumption).
    revert S. apply sums_ext. intros a. unfold truncG. rewrite <- surjective_pairing in Hh. destruct (Hh a) as [I1 I2].
    destruct (insideb (bnd l f) a) eqn:EI.
    - apply insideb_spec in EI. rewrite (I1 EI). rewrite El at 2. reflexivity.
    - cbn. apply I2. intros C. apply insideb_spec in C. congruence.
  Qed.

  Lemma cs_none m f c r : pev (cs (fun _ => None)) m f c r = pev exactM m f c r.
  Proof. reflexivity. Qed.

  Lemma cs_inside m : wf m -> aligned m -> forall f c r, pos m f c r -> forall y,
    (forall v, In v (nthq m f) -> exists a, y v = Some a /\ inside (ev v) a) -> pev (cs y) m f c r = prob m y f c r.
  Proof.
    intros W A f c r P. revert f c r P.
    apply (pos_induction (fun m f c r => forall y,
      (forall v, In v (nthq m f) -> exists a, y v = Some a /\ inside (ev v) a) -> pev (cs y) m f c r = prob m y f c r)); auto.
    - intros l f c r Hok Hf Hc Hr y H. unfold pev, prob, loglik. cbn [evalm]. unfold cs, cscore, leaf_score.
      destruct (H (nth f (query (l_scope l)) 0%nat)) as (a & E & Ha); [rewrite nthq_leaf by assumption; now left|].
      rewrite E. unfold truncG, bnd. rewrite (proj2 (insideb_spec _ _) Ha). reflexivity.
    - intros ch co rr lg f c r W0 A0 HP IH y H. cbn in W0. destruct W0 as [W0 _].
      pose proof (wf_cpos ch (wf_wf1 ch W0)) as Cp. rewrite prob_pev, !pev_sum by assumption.
      apply bsum_ext. intros ci Hci. f_equal. apply (IH ci Hci). exact H.
    - intros sc pre ch post g c r _ _ HP W0 A0 _ EN IH y H. rewrite prob_pev, !pev_cat1 by apply HP. apply IH. now rewrite <- EN.
    - intros sc pre ch post f k r _ _ HP W0 A0 _ EN IH y H. rewrite prob_pev, !pev_cat2 by apply HP. apply IH. now rewrite <- EN.
    - intros ch c r W0 A0 HP IH y H. rewrite prob_pev, !pev_product. apply bprod_ext. intros f Hf. apply (IH f Hf).
      intros v Hv. apply H. apply nthq_product; eauto.
  Qed.

  Lemma cs_outside m : wf m -> aligned m -> forall f c r, pos m f c r -> forall y,
    (exists v a, In v (nthq m f) /\ y v = Some a /\ ~ inside (ev v) a) -> pev (cs y) m f c r = 0.
  Proof.
    intros W A f c r P. revert f c r P.
    apply (pos_induction (fun m f c r => forall y,
      (exists v a, In v (nthq m f) /\ y v = Some a /\ ~ inside (ev v) a) -> pev (cs y) m f c r = 0)); auto.
    - intros l f c r Hok Hf Hc Hr y (v & a & Hv & E & Ha). rewrite nthq_leaf in Hv by assumption. destruct Hv as [<-|[]].
      unfold pev. cbn [evalm]. unfold cs, cscore. rewrite E. unfold truncG, bnd.
      destruct (insideb _ a) eqn:EI; [apply insideb_spec in EI; contradiction|reflexivity].
    - intros ch co rr lg f c r W0 A0 HP IH y H. cbn in W0. destruct W0 as [W0 _].
      pose proof (wf_cpos ch (wf_wf1 ch W0)) as Cp. rewrite !pev_sum by assumption.
      apply bsum_zero. intros ci Hci. destruct (IH ci Hci) as [_ B]. rewrite B by exact H. ring.
    - intros sc pre ch post g c r _ _ HP W0 A0 _ EN IH y H. rewrite !pev_cat1 by apply HP. apply IH. now rewrite <- EN.
    - intros sc pre ch post f k r _ _ HP W0 A0 _ EN IH y H. rewrite !pev_cat2 by apply HP. apply IH. now rewrite <- EN.
    - intros ch c r W0 A0 HP IH y (v & a & Hv & H). rewrite !pev_product. apply nthq_product in Hv; [|assumption].
      destruct Hv as (f & Hf & Hv). apply (bprod_zero _ _ f Hf). apply (IH f Hf). eauto.
  Qed.

  Definition in_boxb (vs : list nat) (y : row) : bool :=
    forallb (fun v => match y v with Some a => insideb (ev v) a | None => false end) vs.
  Lemma in_boxb_spec vs y : in_boxb vs y = true <-> in_box ev vs y.
  Proof.
    unfold in_boxb, in_box. rewrite forallb_forall. split; intros H v Hv; specialize (H v Hv).
    - destruct (y v) as [a|]; [|discriminate]. exists a. split; [reflexivity|]. now apply insideb_spec.
    - destruct H as (a & -> & Ha). now apply insideb_spec.
  Qed.

  Lemma box_exact m s f c r g vs : built m -> aligned m -> ll_shape m = Ok s -> in_shape s f c r ->
    leaf_families D fo m -> iv_loglik fo m ev = Ok g -> NoDup vs -> (forall v, In v vs <-> In v (nth f (fts m) [])) ->
    box_prob D vs (fun y => prob m y f c r) ev (pev exactM m f c r).
  Proof.
    intros B A L I LF H ND HV. pose proof (built_wf m B) as W. pose proof (in_shape_pos m s f c r W L I) as P.
    exists (fun y => if in_boxb vs y then prob m y f c r else 0). split.
    { intros y. apply ind_if. apply in_boxb_spec. }
    intros x. pose proof (cell_marg exactM truncG D m W A (cells m g LF H) f c r P vs x ND) as K.
    rewrite <- (cs_none m f c r). unfold cs.
    rewrite (cell_local exactM truncG m W A f c r P (fun _ => None) (set_nan vs x)).
    2:{ intros v Hv. symmetry. apply set_nan_In. now apply HV. }
    assert (incl vs (nthq m f)) as HI by (intros v Hv; now apply HV). specialize (K HI).
    revert K. apply sums_over_ext; [assumption|]. intros y Hy _.
    destruct (in_boxb vs y) eqn:EB.
    - apply in_boxb_spec in EB. apply cs_inside; auto. intros v Hv. apply EB. now apply HV.
    - apply cs_outside; auto.
      assert (exists v, In v vs /\ (match y v with Some a => insideb (ev v) a | None => false end) = false) as (v & Hv & Ev).
      { clear - EB. unfold in_boxb in EB. induction vs as [|v vs IH]; [discriminate|]. cbn in EB.
        destruct (match y v with Some a => insideb (ev v) a | None => false end) eqn:E.
        - destruct (IH EB) as (u & Hu & Eu). exists u. split; [now right|assumption].
        - exists v. split; [now left|assumption]. }
      destruct (Hy v Hv) as (a & Ea). exists v, a. rewrite Ea in Ev. split; [now apply HV|]. split; [assumption|].
      intros C. apply insideb_spec in C. congruence.
  Qed.

  Lemma got_close m g e : leaf_families D fo m -> iv_loglik fo m ev = Ok g ->
    (e = eps40 \/ (e = 0 /\ entries_ok (fun l f c r => eps40 <= mass (fl_fam (fo l) f c r) (fst (bnd l f)) (snd (bnd l f))) m)) ->
    Forall (close_leaf e exactM got) (leaves_of m).
  Proof.
    intros LF H HE. pose proof (entries m g LF H) as E. unfold entries_ok in *. rewrite Forall_forall in *.
    intros l Hl f c r Hf Hc Hr. destruct (E l Hl f c r Hf Hc Hr) as (A & B & _ & CP & V). cbn zeta in V.
    pose proof (capable_fam _ _ CP) as CF. destruct (mass_nonneg _ (fst (bnd l f)) (snd (bnd l f)) CF A) as [M0 M1].
    unfold exactM. rewrite pr_lfrom by assumption. pose proof eps40_pos.
    destruct HE as [->|[-> Hm]].
    - destruct V as [->| ->]; [lra|]. unfold Rmax. destruct (Rle_dec _ _); lra.
    - specialize (Hm l Hl f c r Hf Hc Hr). destruct V as [->| ->]; [lra|]. rewrite Rmax_left by assumption. lra.
  Qed.
End Box.

Lemma box_bounds D fo ev m s f c r g vs : built m -> aligned m -> ll_shape m = Ok s -> in_shape s f c r ->
  leaf_families D fo m -> iv_loglik fo m ev = Ok g -> NoDup vs -> (forall v, In v vs <-> In v (nth f (fts m) [])) ->
  exists P, box_prob D vs (fun y => prob m y f c r) ev P /\
    P <= pr (g f c r) <= P + INR (length vs) * / 10 ^ 40.
Proof.
  intros B A L I LF H ND HV. exists (pev (exactM fo ev) m f c r). split; [eapply box_exact; eauto|].
  pose proof (built_wf m B) as W. pose proof (in_shape_pos m s f c r W L I) as P.
  destruct (eval_err eps40 _ _ m W A (got_close D fo ev m g eps40 LF H (or_introl eq_refl)) f c r P) as [E1 E2].
  destruct (iv_loglik_ok fo ev m g H) as [-> _]. 
  assert (length (nthq m f) <= length vs)%nat as LL.
  { apply NoDup_incl_length; [|intros v Hv; now apply HV].
    apply ssorted_NoDup. apply (wf_sorted m (wf_wf1 m W)). destruct (ll_shape_spec m s W L) as (<- & _). apply I. }
  apply le_INR in LL. unfold pev in *.
  assert (INR (length (nthq m f)) * eps40 <= INR (length vs) * eps40) by (apply Rmult_le_compat_r; [pose proof eps40_pos; lra|assumption]).
  unfold eps40 in *. lra.
Qed.

Lemma box_mass_unique d g b p q : box_mass d g b p -> box_mass d g b q -> p = q.
Proof.
  intros (h & Hh & Sp) (k & Hk & Sq). apply (sums_unique d k); [|assumption]. revert Sp. apply sums_ext. intros a.
  destruct (Hh a) as [H1 H2]. destruct (Hk a) as [K1 K2].
  destruct (insideb b a) eqn:E; [apply insideb_spec in E; rewrite H1, K1; auto|].
  assert (~ inside b a) as N by (intros C; apply insideb_spec in C; congruence). rewrite H2, K2; auto.
Qed.

Lemma box_exactly D fo ev m s f c r g vs : built m -> aligned m -> ll_shape m = Ok s -> in_shape s f c r ->
  leaf_families D fo m -> iv_loglik fo m ev = Ok g -> NoDup vs -> (forall v, In v vs <-> In v (nth f (fts m) [])) ->
  Forall (fun l => forall f c r, (f < length (query (l_scope l)))%nat -> (c < l_ch l)%nat -> (r < l_rep l)%nat ->
    exists p, box_mass (D (nth f (query (l_scope l)) 0%nat)) (fun a => pr (l_lp l f c r a)) (ev (nth f (query (l_scope l)) 0%nat)) p /\ / 10 ^ 40 <= p)
    (leaves_of m) ->
  box_prob D vs (fun y => prob m y f c r) ev (pr (g f c r)).
Proof.
  intros B A L I LF H ND HV HM. pose proof (built_wf m B) as W. pose proof (in_shape_pos m s f c r W L I) as P.
  replace (pr (g f c r)) with (pev (exactM fo ev) m f c r); [eapply box_exact; eauto|].
  destruct (iv_loglik_ok fo ev m g H) as [-> _]. 
  assert (Forall (close_leaf 0 (exactM fo ev) (got fo ev)) (leaves_of m)) as CL.
  { apply (got_close D fo ev m _ 0 LF H). right. split; [reflexivity|].
    pose proof (entries D fo ev m _ LF H) as E. unfold entries_ok in *. rewrite Forall_forall in *.
    intros l Hl f' c' r' Hf Hc Hr. destruct (E l Hl f' c' r' Hf Hc Hr) as (A1 & B1 & (mode & El) & CP & _).
    destruct (HM l Hl f' c' r' Hf Hc Hr) as (p & Hp & Le).
    pose proof (mass_spec _ _ (fst (bnd ev l f')) (snd (bnd ev l f')) (capable_fam _ _ CP) A1 B1) as M.
    rewrite <- surjective_pairing in M. unfold eps40.
    rewrite (box_mass_unique _ _ _ _ p M); [assumption|]. unfold bnd. 
    destruct Hp as (h & Hh & S). exists h. split; [|assumption]. intros a. specialize (Hh a). rewrite El in Hh at 2. exact Hh. }
  destruct (eval_err 0 _ _ m W A CL f c r P) as [E1 E2]. unfold pev in *. lra.
Qed.

Lemma iv_ok_iff D fo ev m : leaf_families D fo m ->
  ((exists g, iv_loglik fo m ev = Ok g) <->
   Forall (fun l => forall f c r, (f < length (query (l_scope l)))%nat -> (c < l_ch l)%nat -> (r < l_rep l)%nat ->
     interval_capable (fl_fam (fo l) f c r) (ev (nth f (query (l_scope l)) 0%nat))) (leaves_of m)).
Proof.
  intros LF. split.
  - intros (g & H). pose proof (entries D fo ev m g LF H) as E. unfold entries_ok in E. eapply Forall_impl; [|exact E].
    intros l Hl f c r Hf Hc Hr. apply (Hl f c r Hf Hc Hr).
  - intros HC. unfold iv_loglik. replace (forallb _ _) with true; [eauto|]. symmetry. apply forallb_forall. intros l Hl.
    unfold leaf_families in LF. rewrite Forall_forall in LF, HC. destruct (LF l Hl) as [(mode & El) HF].
    assert (l_scope l = fl_scope (fo l) /\ l_ch l = fl_ch (fo l) /\ l_rep l = fl_rep (fo l)) as (E1 & E2 & E3).
    { rewrite El at 1 3 5. cbn. auto. }
    unfold leaf_iv. replace (allb _ _) with true; [reflexivity|]. symmetry.
    apply allb_true. intros f Hf. apply allb_true. intros c Hc. apply allb_true. intros r Hr.
    rewrite <- E1 in Hf. rewrite <- E2 in Hc. rewrite <- E3 in Hr. specialize (HC l Hl f c r Hf Hc Hr).
    destruct (HF f c r Hf Hc Hr) as [A _]. unfold entry_iv. rewrite <- E1.
    destruct (ev (nth f (query (l_scope l)) 0%nat)) as [lo hi]. cbn [fst snd].
    destruct (fam_iv_mass _ lo hi A HC) as (v & -> & _). reflexivity.
Qed.

Lemma mass_unbounded fm : capable_family fm -> fam_ok fm = true -> mass fm Nan Nan = 1.
Proof.
  intros HC Hok. destruct fm as [l|K z|n l|l|lr|r l|K N n|a b|lr|m ls|m ls]; try contradiction; cbn [mass nan_to Gx];
    try (rewrite Rmax_right by lra; lra).
  - change (insideb (Nan, Nan) 0) with true. change (insideb (Nan, Nan) 1) with true. cbv iota. lra.
  - cbn in Hok. apply Nat.ltb_lt in Hok. rewrite <- (softmax_sum K z) by lia. apply bsum_ext. reflexivity.
Qed.

Lemma iv_unbounded D fo ev m s f c r g : built m -> aligned m -> ll_shape m = Ok s -> in_shape s f c r ->
  leaf_families D fo m -> iv_loglik fo m ev = Ok g -> (forall v, ev v = (Nan, Nan)) -> g f c r = Fin 0.
Proof.
  intros B A L I LF H HN. pose proof (built_wf m B) as W. pose proof (in_shape_pos m s f c r W L I) as P.
  destruct (iv_loglik_ok fo ev m g H) as [-> _]. apply pr_inj. rewrite pr_Fin0.
  assert (Forall (close_leaf 0 (leaf_score (fun _ => None)) (got fo ev)) (leaves_of m)) as CL.
  { pose proof (entries D fo ev m _ LF H) as E. unfold entries_ok in E. eapply Forall_impl; [|exact E].
    intros l Hl f' c' r' Hf Hc Hr. destruct (Hl f' c' r' Hf Hc Hr) as (A1 & B1 & _ & CP & V). cbn zeta in V.
    unfold bnd in V. rewrite HN in V. cbn [fst snd] in V. rewrite (mass_unbounded _ (capable_fam _ _ CP) A1) in V.
    change (leaf_score (fun _ => None) l f' c' r') with (Fin 0). rewrite pr_Fin0. pose proof eps40_pos.
    rewrite Rmax_left in V by lra. destruct V as [->| ->]; lra. }
  destruct (eval_err 0 _ _ m W A CL f c r P) as [E1 E2].
  rewrite <- prob_pev in E1, E2. rewrite (prob_all_nan m W A f c r P) in E1, E2 by reflexivity. unfold pev in *. lra.
Qed.
