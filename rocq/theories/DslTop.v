(** build: success, shape, validity and density. *)
From Coq Require Import List Arith Bool Lia Lra.
From Verif Require Import Base ScopeModel ScopeProofs CircuitModel CircuitSpec CircuitBasics CircuitEval CircuitProps MargModel MargProofs SignedModel SignedProofs CnetModel CnetProofs LearnMain PromTop PruneTop DslModel DslSpec DslProofs.
Import ListNotations.
Local Open Scope R_scope.

Lemma ebuild_sum ts : ebuild (ESum ts) =
      bind (mapR ebuild (map snd ts)) (fun ms =>
      bind (validate_sum ms) (fun _ =>
      let m0 := hd (MProduct (MCat false (mkScope [] []) [])) ms in
      bind (make_sum_weights (map fst ts) (features (out_shape m0)) (repetitions (out_shape m0))) (fun w =>
      bind (sum_inputs ms) (fun inp => mk_sum_w inp 1 1 (W4 w))))).
Proof. rewrite <- (map_mapR ebuild snd). reflexivity. Qed.

Lemma validate_unit {A} (r : result unit) (k : unit -> result A) m : bind r k = Ok m -> r = Ok tt /\ k tt = Ok m.
Proof. destruct r as [[]|]; [auto|discriminate]. Qed.

Lemma matches_children fs ms :
  Forall (fun e => Forall built (emods e) -> forall m, ebuild e = Ok m -> wellformed e /\ matches e m) fs ->
  Forall built (flat_map emods fs) -> mapR ebuild fs = Ok ms -> Forall wellformed fs /\ Forall2 matches fs ms.
Proof.
  intros IH B E. apply mapR_ok in E. apply forall_flat_map in B. induction E as [|e m fs ms E _ IHl]; [split; constructor|].
  inversion IH as [|? ? I1 I2]; subst. inversion B as [|? ? B1 B2]; subst. destruct (I1 B1 m E), (IHl I2 B2). split; constructor; auto.
Qed.

Lemma matches_built fs ms : Forall2 matches fs ms -> Forall built ms.
Proof. induction 1 as [|e m fs ms (B & _) _ IH]; constructor; auto. Qed.

Lemma product_matches fs ms sc : Forall2 matches fs ms -> (2 <= length fs)%nat -> built (MProduct (MCat false sc ms)) -> join_all (map scope_of ms) = Ok sc ->
  matches (EProd fs) (MProduct (MCat false sc ms)).
Proof.
  intros F L B J. split; [exact B|]. split.
  { destruct F as [|e m fs ms (_ & Sh & _) _]; [cbn in L; lia|]. cbn [out_shape map hd_shape eshape channels repetitions features]. now rewrite Sh. }
  assert (HV : Forall valid (map scope_of ms)).
  { apply Forall_map, Forall_forall. intros m Hm. destruct (in_F2_r _ _ _ _ F Hm) as (e & _ & Bm & _). apply (wf_scope m (wf_wf1 _ (built_wf _ Bm))). }
  destruct (join_all_ok (map scope_of ms)) as (sc' & EJ & _ & Q & Ev); [intros Z; apply map_eq_nil in Z; subst; inversion F; subst; cbn in L; lia|exact HV|].
  assert (sc' = sc) by congruence. subst sc'. change (scope_of (MProduct (MCat false sc ms))) with sc.
  assert (HQ : forall v, In v (query sc) <-> evar (EProd fs) v).
  { intros v. rewrite Q, evar_prod. split.
    - intros (t & Ht & Hv). apply in_map_iff in Ht. destruct Ht as (m & <- & Hm). destruct (in_F2_r _ _ _ _ F Hm) as (e & He & _ & _ & K & _). exists e. split; [exact He|now apply K].
    - intros (e & He & Hv). destruct (in_F2_l _ _ _ _ F He) as (m & Hm & _ & _ & K & _). exists (scope_of m). split; [now apply in_map|now apply K]. }
  split; [exact HQ|]. intros v. rewrite Ev, eevid_prod, HQ. apply and_iff_compat_r. split.
  - intros (t & Ht & Hv). apply in_map_iff in Ht. destruct Ht as (m & <- & Hm). destruct (in_F2_r _ _ _ _ F Hm) as (e & He & _ & _ & _ & K). exists e. split; [exact He|now apply K].
  - intros (e & He & Hv). destruct (in_F2_l _ _ _ _ F He) as (m & Hm & _ & _ & _ & K). exists (scope_of m). split; [now apply in_map|now apply K].
Qed.

Lemma ebuild_sound e : Forall built (emods e) -> forall m, ebuild e = Ok m -> wellformed e /\ matches e m.
Proof.
  induction e as [m|fs IH|w e IH|ts IH] using expr_ind'; intros B m' E.
  - cbn in E. injection E as <-. inversion B; subst. split; [constructor|]. split; [assumption|]. split; [reflexivity|]. split; intros v; reflexivity.
  - cbn [ebuild] in E. destruct (mapR ebuild fs) as [ms|] eqn:EM; [|discriminate]. cbn [bind] in E. apply validate_unit in E. destruct E as [V E].
    rewrite emods_prod in B. destruct (matches_children fs ms IH B EM) as [WF F]. destruct (proj1 (validate_product_iff fs ms F) V) as (L & D & C & Rp).
    pose proof (Forall2_len _ _ _ F) as LL. destruct (product_built ms) as (sc & EP & BP & J); [lia|eapply matches_built; eauto|exact V|].
    rewrite EP in E. injection E as <-. split; [now constructor|]. now apply product_matches.
  - discriminate.
  - rewrite ebuild_sum in E. destruct (mapR ebuild (map snd ts)) as [ms|] eqn:EM; [|discriminate]. cbn [bind] in E. apply validate_unit in E. destruct E as [V E].
    rewrite emods_sum in B. destruct (matches_children _ ms IH B EM) as [WF F]. destruct (proj1 (validate_sum_iff _ ms F) V) as (L & D & Ft & C & Rp).
    pose proof (Forall2_len _ _ _ F) as LL. rewrite map_length in L, LL. cbn zeta in E.
    destruct (make_sum_weights _ _ _) as [w|] eqn:EW; [|discriminate]. pose proof (make_weights_pos _ _ _ _ EW) as WP.
    destruct ts as [|[w0 e0] ts]; [cbn in L; lia|]. destruct ms as [|m0 ms]; [cbn in LL; lia|].
    rewrite make_weights_ok in EW by (try discriminate; exact WP). injection EW as <-. cbn [bind] in E.
    destruct (mix_built (map fst ((w0, e0) :: ts)) (m0 :: ms)) with (m0 := m0) as (E1 & E2 & E3 & E4).
    + now rewrite map_length.
    + lia.
    + exact WP.
    + eapply matches_built; eauto.
    + exact V.
    + reflexivity.
    + rewrite E1 in E. cbn [bind hd] in E. pose proof (eq_trans (eq_sym E) E2) as E'. injection E' as ->.
      split.
      * constructor; try assumption. apply Forall_forall. intros t Ht. apply WP. now apply in_map.
      * inversion F as [|? ? ? ? (Bm & Sh & Q & Ev) F']; subst. split; [exact E3|]. split; [|split; assumption].
        cbn [out_shape hd_shape map features channels repetitions eshape]. now rewrite Sh.
Qed.

Lemma ebuild_complete e : Forall built (emods e) -> wellformed e -> exists m, ebuild e = Ok m.
Proof.
  induction e as [m|fs IH|w e IH|ts IH] using expr_ind'; intros B W.
  - cbn. eauto.
  - inversion W as [|fs' L WF D C Rp|]; subst. rewrite emods_prod in B.
    destruct (mapR_all ebuild fs) as (ms & EM).
    { intros e He. rewrite forall_flat_map in B. rewrite Forall_forall in *. apply IH; auto. }
    destruct (matches_children fs ms) as [_ F]; auto.
    { apply Forall_forall. intros e _. apply ebuild_sound. }
    assert (V : validate_product ms = Ok tt) by (apply (validate_product_iff fs ms F); auto).
    pose proof (Forall2_len _ _ _ F) as LL. destruct (product_built ms) as (sc & EP & _); [lia|eapply matches_built; eauto|exact V|].
    exists (MProduct (MCat false sc ms)). cbn [ebuild]. rewrite EM. cbn [bind]. rewrite V. exact EP.
  - inversion W.
  - inversion W as [| |ts' L WP WF D Ft C Rp]; subst. rewrite emods_sum in B.
    destruct (mapR_all ebuild (map snd ts)) as (ms & EM).
    { intros e He. rewrite forall_flat_map in B. rewrite Forall_forall in IH, B, WF. apply IH; auto. }
    destruct (matches_children (map snd ts) ms) as [_ F]; auto.
    { apply Forall_forall. intros e _. apply ebuild_sound. }
    assert (V : validate_sum ms = Ok tt) by (apply (validate_sum_iff (map snd ts) ms F); rewrite map_length; auto).
    pose proof (Forall2_len _ _ _ F) as LL. rewrite map_length in LL.
    destruct ts as [|[w0 e0] ts]; [cbn in L; lia|]. destruct ms as [|m0 ms]; [cbn in LL; lia|].
    assert (WP' : forall w, In w (map fst ((w0, e0) :: ts)) -> 0 < w).
    { intros w Hw. apply in_map_iff in Hw. destruct Hw as (t & <- & Ht). rewrite Forall_forall in WP. now apply WP. }
    destruct (mix_built (map fst ((w0, e0) :: ts)) (m0 :: ms)) with (m0 := m0) as (E1 & E2 & _ & _).
    + now rewrite map_length.
    + lia.
    + exact WP'.
    + eapply matches_built; eauto.
    + exact V.
    + reflexivity.
    + eexists. rewrite ebuild_sum, EM. cbn [bind]. rewrite V. cbn [bind]. cbn zeta. rewrite make_weights_ok by (try discriminate; exact WP'). cbn [bind].
      rewrite E1. cbn [bind hd]. exact E2.
Qed.

(** Density.  [dens] is the value an expression stands for. *)
Fixpoint dens (d : module -> R) (e : expr) : R :=
  match e with
  | ETerm m => d m
  | EProd fs => (fix go l := match l with [] => 1 | f :: r => dens d f * go r end) fs
  | EWtd _ e => dens d e
  | ESum ts => (fix go l := match l with [] => 0 | (w, f) :: r => w * dens d f + go r end) ts / lsumR (map fst ts)
  end.
Definition lprodR (l : list R) : R := fold_right Rmult 1 l.
Lemma dens_prod d fs : dens d (EProd fs) = lprodR (map (dens d) fs).
Proof. cbn [dens]. induction fs as [|f fs IH]; [reflexivity|]. cbn. now rewrite IH. Qed.
Lemma dens_sum d (ts : list (R * expr)) : dens d (ESum ts) = lsumR (map (fun t => fst t * dens d (snd t)) ts) / lsumR (map fst ts).
Proof. cbn [dens]. f_equal. induction ts as [|[w f] ts IH]; [reflexivity|]. cbn [map lsumR fold_right fst snd]. rewrite IH. reflexivity. Qed.

Definition plain (Rn : nat) (m : module) : Prop := built m /\ aligned m /\ uniform Rn m /\ features (out_shape m) = 1%nat.

Lemma lprodR_nth l : lprodR l = bprod (length l) (fun i => nth i l 1).
Proof. induction l as [|a l IH]; [reflexivity|]. cbn [length lprodR fold_right]. rewrite bprod_S_first. cbn [nth]. unfold lprodR in IH. now rewrite IH. Qed.

Lemma nsum_feat ms : Forall (fun m => features (out_shape m) = 1%nat) ms -> nsum (map (fun c => features (out_shape c)) ms) = length ms.
Proof. induction 1 as [|x l H _ IH]; [reflexivity|]. cbn [map nsum length]. lia. Qed.

Lemma pev_product_list s sc ms c r : Forall (fun m => features (out_shape m) = 1%nat) ms ->
  pev s (MProduct (MCat false sc ms)) 0 c r = lprodR (map (fun m => pev s m 0 c r) ms).
Proof.
  intros F. rewrite pev_product.
  assert (features (out_shape (MCat false sc ms)) = length ms) as -> by (rewrite <- nsum_feat by exact F; cbn [out_shape features]; now rewrite map_map).
  rewrite lprodR_nth, map_length. apply bprod_ext. intros i Hi. set (d := MLeaf (mkLeaf (mkScope [] []) 0 0 (fun _ _ _ _ => NInf) (fun _ _ _ => 0))).
  destruct (nth_split ms d Hi) as (pre & post & Em & Lp). set (x := nth i ms d) in *.
  assert (nth i (map (fun m => pev s m 0 c r) ms) 1 = pev s x 0 c r) as ->.
  { rewrite (nth_indep _ 1 (pev s d 0 c r)) by now rewrite map_length. unfold x. apply (map_nth (fun m => pev s m 0 c r)). }
  clearbody x. subst ms. apply Forall_app in F. destruct F as [F1 F2]. inversion F2; subst.
  transitivity (pev s (MCat false sc (pre ++ x :: post)) (nsum (map (fun c => features (out_shape c)) pre) + 0) c r).
  - f_equal. rewrite nsum_feat by exact F1. lia.
  - apply pev_cat1. lia.
Qed.

Lemma pev_mix s (ws : list R) ms m0 Rn r : length ws = length ms -> ws <> [] -> (forall w, In w ws -> 0 < w) ->
  Forall (fun m => channels (out_shape m) = 1%nat) ms -> hd_error ms = Some m0 -> (r < Rn)%nat -> ll_reps m0 = Rn ->
  pev s (MSum (MCat true (scope_of m0) ms) 1 Rn (fun f i o r => ln (wv (mix_weights ws 1 Rn) f i o r))) 0 0 r
  = lsumR (map (fun p => fst p * pev s (snd p) 0 0 r) (combine ws ms)) / lsumR ws.
Proof.
  intros L NE WP C H0 Hr HL. pose proof (lsumR_pos ws NE WP) as TP.
  assert (CH : channels (out_shape (MCat true (scope_of m0) ms)) = length ms) by (cbn [out_shape channels]; rewrite map_map; now apply nsum_ones).
  assert (LN : (0 < length ms)%nat) by (rewrite <- L; destruct ws; [congruence|cbn; lia]).
  rewrite pev_sum by (rewrite CH; exact LN). rewrite CH.
  assert (ll_reps (MCat true (scope_of m0) ms) = Rn) as ->.
  { destruct ms as [|m ms]; [discriminate|]. cbn in H0 |- *. congruence. }
  assert (bidx Rn r = r) as BR by (unfold bidx; destruct (Nat.eqb_spec Rn 1); [lia|reflexivity]). rewrite BR.
  set (d := MLeaf (mkLeaf (mkScope [] []) 0 0 (fun _ _ _ _ => NInf) (fun _ _ _ => 0))).
  rewrite (bsum_ext _ _ (fun i => nth i ws 0 / lsumR ws * pev s (nth i ms d) 0 0 r)).
  - rewrite (lsumR_bsum _ _ (0, d)). rewrite combine_length, L, Nat.min_id. rewrite <- bsum_div. apply bsum_ext. intros i Hi.
    rewrite combine_nth by exact L. cbn [fst snd]. field. lra.
  - intros i Hi. f_equal.
    + cbn [wv mix_weights]. apply softmax_ln; [exact Hi| |].
      * intros j Hj. apply Rdiv_lt_0_compat; [|exact TP]. apply WP, nth_In. lia.
      * rewrite bsum_div, <- L, <- lsumR_nth. field. lra.
    + destruct (nth_split ms d Hi) as (pre & post & Em & Lp). set (x := nth i ms d) in *. clearbody x. subst ms.
      apply Forall_app in C. destruct C as [C1 C2]. inversion C2; subst.
      transitivity (pev s (MCat true (scope_of m0) (pre ++ x :: post)) 0 (nsum (map (fun c => channels (out_shape c)) pre) + 0) r).
      * f_equal. rewrite nsum_ones by exact C1. lia.
      * apply pev_cat2. lia.
Qed.
