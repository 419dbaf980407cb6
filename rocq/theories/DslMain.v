(** Density of what [build] returns, in terms of the source expression. *)
From Coq Require Import List Arith Bool Lia Lra.
From Verif Require Import Base ScopeModel ScopeProofs CircuitModel CircuitSpec CircuitBasics CircuitEval CircuitProps Integral CircuitMarg MargModel MargProofs SignedModel SignedProofs CnetModel CnetProofs LearnProofs LearnMain PromTop PruneTop DslModel DslSpec DslProofs DslTop.
Import ListNotations.
Local Open Scope R_scope.

Lemma pairs_values s (fs : list expr) ms c r : Forall2 (fun e m => pev s m 0 c r = dens (fun m => pev s m 0 c r) e) fs ms ->
  map (fun m => pev s m 0 c r) ms = map (dens (fun m => pev s m 0 c r)) fs.
Proof. induction 1 as [|e m fs ms H _ IH]; [reflexivity|]. cbn [map]. now rewrite H, IH. Qed.

Lemma plain_children fs ms Rn (P : module -> Prop) (Q : expr -> module -> Prop) :
  Forall (fun e => Forall (plain Rn) (emods e) -> forall m, ebuild e = Ok m -> plain Rn m /\ Q e m) fs ->
  Forall (plain Rn) (flat_map emods fs) -> mapR ebuild fs = Ok ms -> Forall (plain Rn) ms /\ Forall2 Q fs ms.
Proof.
  intros IH B E. apply mapR_ok in E. apply forall_flat_map in B. induction E as [|e m fs ms E _ IHl]; [split; constructor|].
  inversion IH as [|? ? I1 I2]; subst. inversion B as [|? ? B1 B2]; subst. destruct (I1 B1 m E), (IHl I2 B2). split; constructor; auto.
Qed.

Lemma plain_feat Rn l : Forall (plain Rn) l -> Forall (fun m => features (out_shape m) = 1%nat) l.
Proof. apply Forall_impl. intros m H. apply H. Qed.

Definition denotes Rn (e : expr) (m : module) : Prop :=
  forall s c r, (c < channels (out_shape m))%nat -> (r < Rn)%nat -> pev s m 0 c r = dens (fun m => pev s m 0 c r) e.

Lemma same_vars_fts ms : Forall (fun m => wf m /\ features (out_shape m) = 1%nat) ms ->
  (forall a b, In a ms -> In b ms -> forall v, In v (query (scope_of a)) <-> In v (query (scope_of b))) ->
  Forall (fun c => fts c = hd [] (map fts ms)) ms.
Proof.
  intros F H. destruct ms as [|m0 ms]; [constructor|]. cbn [map hd]. apply Forall_forall. intros m Hm. rewrite Forall_forall in F.
  destruct (F m Hm) as [W1 F1], (F m0 ltac:(now left)) as [W0 F0].
  rewrite (good_fts m (query (scope_of m0))), (good_fts m0 (query (scope_of m0))); auto; try reflexivity.
  intros v. apply H; [exact Hm|now left].
Qed.

Lemma ebuild_dens Rn e : Forall (plain Rn) (emods e) -> forall m, ebuild e = Ok m -> plain Rn m /\ denotes Rn e m.
Proof.
  induction e as [m|fs IH|w e IH|ts IH] using expr_ind'; intros B m' E.
  - cbn in E. injection E as <-. inversion B; subst. split; [assumption|]. intros s c r _ _. reflexivity.
  - assert (BB : Forall built (emods (EProd fs))) by (eapply Forall_impl; [|exact B]; intros m H; apply H).
    cbn [ebuild] in E. destruct (mapR ebuild fs) as [ms|] eqn:EM; [|discriminate]. cbn [bind] in E. apply validate_unit in E. destruct E as [V E].
    rewrite emods_prod in B, BB.
    destruct (matches_children fs ms) as [_ FM]; [apply Forall_forall; intros e _; apply ebuild_sound|exact BB|exact EM|].
    destruct (plain_children fs ms Rn (fun _ => True) (denotes Rn) IH B EM) as [PM F]. destruct (proj1 (validate_product_iff fs ms FM) V) as (L & D & C & Rp).
    pose proof (Forall2_len _ _ _ F) as LL.
    destruct (product_built ms) as (sc & EP & BP & J); [lia|eapply Forall_impl; [|exact PM]; intros m H; apply H|exact V|].
    rewrite EP in E. injection E as <-.
    assert (CC : forall m, In m ms -> channels (out_shape m) = channels (out_shape (MProduct (MCat false sc ms)))).
    { intros m Hm. destruct ms as [|m0 ms0] eqn:Em; [destruct Hm|]. cbn [out_shape channels map hd_shape].
      destruct (in_F2_r _ _ _ _ FM Hm) as (e & He & _ & Sh & _). destruct (in_F2_r _ _ _ m0 FM ltac:(now left)) as (e0 & He0 & _ & Sh0 & _).
      rewrite Sh, Sh0. now apply C. }
    split.
    + split; [exact BP|]. split; [apply (proj2 (aligned_cat false sc ms)); split; [eapply Forall_impl; [|exact PM]; intros m H; apply H|discriminate]|].
      split; [apply (proj2 (uniform_cat Rn false sc ms)); eapply Forall_impl; [|exact PM]; intros m H; apply H|reflexivity].
    + intros s c r Hc Hr. rewrite dens_prod, pev_product_list by (eapply plain_feat; eauto). f_equal. apply pairs_values.
      clear -F CC Hc Hr. generalize dependent (channels (out_shape (MProduct (MCat false sc ms)))). intros n Hn Hc. induction F as [|e m fs ms H F IH]; [constructor|].
      constructor; [apply H; [rewrite Hn by (now left); exact Hc|exact Hr]|]. apply IH. intros m' Hm'. apply Hn. now right.
  - discriminate.
  - assert (BB : Forall built (emods (ESum ts))) by (eapply Forall_impl; [|exact B]; intros m H; apply H).
    rewrite ebuild_sum in E. destruct (mapR ebuild (map snd ts)) as [ms|] eqn:EM; [|discriminate]. cbn [bind] in E. apply validate_unit in E. destruct E as [V E].
    rewrite emods_sum in B, BB.
    destruct (matches_children (map snd ts) ms) as [_ FM]; [apply Forall_forall; intros e _; apply ebuild_sound|exact BB|exact EM|].
    destruct (plain_children (map snd ts) ms Rn (fun _ => True) (denotes Rn) IH B EM) as [PM F]. destruct (proj1 (validate_sum_iff _ ms FM) V) as (L & D & Ft & C & Rp).
    pose proof (Forall2_len _ _ _ F) as LL. rewrite map_length in L, LL. cbn zeta in E.
    destruct (make_sum_weights _ _ _) as [w|] eqn:EW; [|discriminate]. pose proof (make_weights_pos _ _ _ _ EW) as WP.
    destruct ts as [|[w0 e0] ts]; [cbn in L; lia|]. destruct ms as [|m0 ms]; [cbn in LL; lia|].
    rewrite make_weights_ok in EW by (try discriminate; exact WP). injection EW as <-. cbn [bind] in E.
    destruct (mix_built (map fst ((w0, e0) :: ts)) (m0 :: ms)) with (m0 := m0) as (E1 & E2 & E3 & E4).
    1: now rewrite map_length. 1: lia. 1: exact WP. 1: eapply matches_built; eauto. 1: exact V. 1: reflexivity.
    rewrite E1 in E. cbn [bind hd] in E. pose proof (eq_trans (eq_sym E) E2) as E'. injection E' as ->.
    assert (P0 : plain Rn m0) by now inversion PM. destruct P0 as (B0 & A0 & U0 & F0). destruct (uniform_ll m0 Rn (built_wf _ B0) U0) as [_ R0].
    rewrite R0, F0 in *.
    assert (C' : Forall (fun m => channels (out_shape m) = 1%nat) (m0 :: ms)).
    { apply Forall_forall. intros m Hm. destruct (in_F2_r _ _ _ _ FM Hm) as (e & He & _ & Sh & _). rewrite Sh. rewrite Forall_forall in C. now apply C. }
    split.
    + split; [exact E3|]. split.
      * apply (proj2 (aligned_cat true (scope_of m0) (m0 :: ms))). split; [eapply Forall_impl; [|exact PM]; intros m H; apply H|]. intros _. apply same_vars_fts.
        -- eapply Forall_impl; [|exact PM]. intros m H. split; [apply built_wf, H|apply H].
        -- intros a b Ha Hb v. destruct (in_F2_r _ _ _ _ FM Ha) as (e & He & _ & _ & Q & _), (in_F2_r _ _ _ _ FM Hb) as (e' & He' & _ & _ & Q' & _).
           rewrite Q, Q'. now apply D.
      * split; [split; [apply (proj2 (uniform_cat Rn true (scope_of m0) (m0 :: ms))); eapply Forall_impl; [|exact PM]; intros m H; apply H|reflexivity]|].
        cbn [out_shape features map hd_shape]. exact F0.
    + intros s c r Hc Hr. assert (c = 0%nat) as -> by (cbn [out_shape channels] in Hc; lia).
      transitivity (lsumR (map (fun p => fst p * pev s (snd p) 0 0 r) (combine (map fst ((w0, e0) :: ts)) (m0 :: ms))) / lsumR (map fst ((w0, e0) :: ts))).
      * apply (pev_mix s (map fst ((w0, e0) :: ts)) (m0 :: ms) m0 Rn r); auto; try discriminate; [now rewrite map_length|]. apply uniform_reps; [now apply built_wf|exact U0].
      * rewrite dens_sum. f_equal. f_equal.
        assert (F' : Forall2 (fun e m => pev s m 0 0 r = dens (fun m => pev s m 0 0 r) e) (map snd ((w0, e0) :: ts)) (m0 :: ms)).
        { clear -F C' Hr. remember (map snd ((w0, e0) :: ts)) as l eqn:El. remember (m0 :: ms) as k eqn:Ek. clear El Ek. induction F as [|e m fs k H F IH]; [constructor|]. inversion C'; subst. constructor; [apply H; [lia|exact Hr]|]. now apply IH. }
        clear -F'. remember ((w0, e0) :: ts) as l eqn:El. remember (m0 :: ms) as k eqn:Ek. clear El Ek. revert k F'. induction l as [|[w e] l IH]; intros k F'.
        -- reflexivity.
        -- inversion F' as [|? m ? k' H F'' E1 E2]; subst. cbn [map combine fst snd]. rewrite H. f_equal. now apply IH.
Qed.

(** expressions without a weighted term in an illegal place *)
Fixpoint pure (e : expr) : Prop :=
  match e with
  | ETerm _ => True
  | EProd fs => (fix go l := match l with [] => True | f :: r => pure f /\ go r end) fs
  | EWtd _ _ => False
  | ESum ts => ts <> [] /\ (fix go (l : list (R * expr)) := match l with [] => True | (w, f) :: r => (0 < w /\ pure f) /\ go r end) ts
  end.
Lemma pure_prod fs : pure (EProd fs) <-> Forall pure fs.
Proof. cbn [pure]. induction fs as [|f fs IH]; [split; constructor|]. rewrite IH. split; [intros []; now constructor|inversion 1; auto]. Qed.
Lemma pure_sum ts : pure (ESum ts) <-> ts <> [] /\ Forall (fun t : R * expr => 0 < fst t /\ pure (snd t)) ts.
Proof. cbn [pure]. apply and_iff_compat_l. induction ts as [|[w f] ts IH]; [split; constructor|]. rewrite IH. split; [intros []; now constructor|inversion 1; auto]. Qed.

Lemma wellformed_pure e : wellformed e -> pure e.
Proof.
  induction e as [m|fs IH|w e IH|ts IH] using expr_ind'; intros W.
  - exact I.
  - inversion W as [|fs' L WF D C Rp|]; subst. apply pure_prod. rewrite Forall_forall in *. auto.
  - inversion W.
  - inversion W as [| |ts' L WP WF D Ft C Rp]; subst. apply pure_sum. split; [intros ->; cbn in L; lia|].
    apply Forall_forall. intros t Ht. rewrite Forall_forall in *. split; [now apply WP|]. apply IH; [|apply WF]; now apply in_map.
Qed.

Definition pure_v (v : pyval) : Prop := match v with VExpr (EWtd w e) => 0 < w /\ pure e | VExpr e => pure e | _ => True end.
Definition unn (d : module -> R) (v : pyval) : R :=
  match v with
  | VNum a => a
  | VMod m => d m
  | VExpr (EWtd w e) => w * dens d e
  | VExpr (ESum ts) => lsumR (map (fun t => fst t * dens d (snd t)) ts)
  | VExpr e => dens d e
  end.
Definition wsum_one (v : pyval) : Prop := match v with VExpr (ESum ts) => lsumR (map fst ts) = 1 | _ => True end.

Lemma mk_weighted_ok w e v : mk_weighted w e = Ok v -> v = VExpr (EWtd w e) /\ 0 < w.
Proof. unfold mk_weighted. destruct (rleb w 0) eqn:E; [discriminate|]. intros H. injection H as <-. split; [reflexivity|]. apply rleb_false in E. lra. Qed.

Lemma as_expr_dens d b e : as_expr b = Ok e -> pure e -> wsum_one b -> pure_v b /\ unn d b = dens d e.
Proof.
  intros H P O. destruct b as [a|m|e']; cbn in H; [discriminate| |]; injection H as <-; [split; [exact I|reflexivity]|].
  destruct e' as [m|fs|w e'|ts]; try (split; [exact P|reflexivity]); [destruct P|]. split; [exact P|].
  rewrite dens_sum. cbn [unn]. cbn [wsum_one] in O. rewrite O. field.
Qed.

Lemma dens_prod2 d a b : dens d (EProd [a; b]) = dens d a * dens d b.
Proof. rewrite dens_prod. cbn. ring. Qed.
Lemma dens_snoc d fs e : dens d (EProd (fs ++ [e])) = dens d (EProd fs) * dens d e.
Proof. rewrite !dens_prod, map_app. cbn [map]. induction (map (dens d) fs) as [|a l IH]; cbn; [ring|]. unfold lprodR in IH. cbn in IH. rewrite IH. ring. Qed.

Lemma pymul_reads on a b v d : pymul on a b = Ok v -> pure_v v -> wsum_one a -> wsum_one b ->
  pure_v a /\ pure_v b /\ unn d v = unn d a * unn d b.
Proof.
  assert (KW : forall w e e' v, mk_weighted w (EProd [e; e']) = Ok v -> pure_v v -> pure e /\ pure e' /\ 0 < w /\ unn d v = w * (dens d e * dens d e')).
  { intros w e e' u H P. apply mk_weighted_ok in H. destruct H as [-> Hw]. cbn [pure_v] in P. destruct P as [_ P]. apply pure_prod in P. inversion P as [|? ? P1 P2]; subst. inversion P2; subst.
    split; [auto|]. split; [auto|]. split; [auto|]. cbn [unn]. now rewrite dens_prod2. }
  assert (K1 : forall w e v, mk_weighted w e = Ok v -> pure_v v -> pure e /\ 0 < w /\ unn d v = w * dens d e).
  { intros w e u H P. apply mk_weighted_ok in H. destruct H as [-> Hw]. cbn [pure_v] in P. tauto. }
  assert (KP : forall e e', pure_v (VExpr (EProd [e; e'])) -> pure e /\ pure e').
  { intros e e' P. cbn [pure_v] in P. apply pure_prod in P. inversion P as [|? ? P1 P2]; subst. inversion P2; subst. auto. }
  assert (KS : forall ts, lsumR (map fst ts) = 1 -> unn d (VExpr (ESum ts)) = dens d (ESum ts)).
  { intros ts O. rewrite dens_sum. cbn [unn]. rewrite O. field. }
  assert (KB : forall e e' b v, as_expr b = Ok e' -> wsum_one b -> Ok (VExpr (EProd [e; e'])) = Ok v -> pure_v v -> pure e /\ pure_v b /\ unn d v = dens d e * unn d b).
  { intros e e' b' u Eb Ob H P. injection H as <-. apply KP in P. destruct P as [P1 P2]. destruct (as_expr_dens d _ _ Eb P2 Ob) as [P3 ->]. split; [auto|]. split; [auto|]. apply dens_prod2. }
  intros H P Oa Ob. destruct a as [x|m|[m|fs|w e|ts]].
  - destruct b as [y|m|[m|fs|w e|ts]]; cbn [pymul] in H.
    + injection H as <-. repeat split; reflexivity.
    + destruct on; [|discriminate]. destruct (K1 _ _ _ H P) as (_ & _ & ->). repeat split.
    + destruct (K1 _ _ _ H P) as (_ & _ & ->). repeat split.
    + destruct (K1 _ _ _ H P) as (Q & _ & ->). repeat split; [exact Q].
    + discriminate.
    + destruct (K1 _ _ _ H P) as (Q & _ & ->). split; [exact I|]. split; [exact Q|]. rewrite KS by exact Ob. reflexivity.
  - cbn [pymul] in H. destruct on; [|discriminate]. destruct b as [y|m'|[m'|fs|w e|ts]].
    + destruct (K1 _ _ _ H P) as (_ & _ & ->). repeat split. cbn [unn dens]. ring.
    + injection H as <-. split; [exact I|]. split; [exact I|]. apply dens_prod2.
    + destruct (KB (ETerm m) _ (VExpr (ETerm m')) v eq_refl Ob H P) as (Q & Q' & ->). auto.
    + destruct (KB (ETerm m) _ (VExpr (EProd fs)) v eq_refl Ob H P) as (Q & Q' & ->). auto.
    + destruct (KW _ _ _ _ H P) as (_ & Q & Hw & ->). split; [exact I|]. split; [split; assumption|]. cbn [unn dens]. ring.
    + destruct (KB (ETerm m) _ (VExpr (ESum ts)) v eq_refl Ob H P) as (Q & Q' & ->). auto.
  - cbn [pymul] in H. destruct b as [y|m'|e'].
    + destruct (K1 _ _ _ H P) as (_ & _ & ->). repeat split. cbn [unn dens]. ring.
    + destruct (KB (ETerm m) _ (VMod m') v eq_refl Ob H P) as (Q & Q' & ->). auto.
    + destruct (KB (ETerm m) _ (VExpr e') v eq_refl Ob H P) as (Q & Q' & ->). auto.
  - cbn [pymul] in H.
    assert (KF : forall e', as_expr b = Ok e' -> Ok (VExpr (EProd (fs ++ [e']))) = Ok v -> pure_v (VExpr (EProd fs)) /\ pure_v b /\ unn d v = unn d (VExpr (EProd fs)) * unn d b).
    { intros e' Eb Hv. injection Hv as <-. cbn [pure_v] in P. apply pure_prod in P. apply Forall_app in P. destruct P as [P1 P2]. inversion P2; subst.
      destruct (as_expr_dens d _ _ Eb ltac:(assumption) Ob) as [P3 P4]. split; [now apply pure_prod|]. split; [exact P3|]. rewrite P4. apply dens_snoc. }
    destruct b as [y|m'|e'].
    + destruct (K1 _ _ _ H P) as (Q & _ & ->). repeat split; [exact Q|]. cbn [unn]. ring.
    + now apply (KF (ETerm m')).
    + now apply (KF e').
  - cbn [pymul] in H. destruct (as_expr b) as [e'|] eqn:Eb; [|discriminate]. cbn [bind] in H. destruct (KW _ _ _ _ H P) as (Q1 & Q2 & Hw & ->).
    destruct (as_expr_dens d _ _ Eb Q2 Ob) as [P3 P4]. split; [split; assumption|]. split; [exact P3|]. rewrite P4. cbn [unn]. ring.
  - cbn [pymul] in H. cbn [wsum_one] in Oa. rewrite (KS ts Oa). destruct b as [y|m'|e'].
    + destruct (K1 _ _ _ H P) as (Q & _ & ->). repeat split; [apply Q|apply Q|]. cbn [unn]. ring.
    + destruct (KB (ESum ts) _ (VMod m') v eq_refl Ob H P) as (Q & Q' & ->). split; [exact Q|]. split; [exact Q'|]. reflexivity.
    + destruct (KB (ESum ts) _ (VExpr e') v eq_refl Ob H P) as (Q & Q' & ->). split; [exact Q|]. split; [exact Q'|]. reflexivity.
Qed.

Lemma w_helper_reads a b v d : w_helper a b = Ok v -> pure_v v -> wsum_one b -> pure_v a /\ pure_v b /\ unn d v = unn d a * unn d b.
Proof.
  intros H P O. destruct a as [x|m|e]; cbn [w_helper] in H; try discriminate. destruct (as_expr b) as [e|] eqn:Eb; [|discriminate]. cbn [bind] in H.
  apply mk_weighted_ok in H. destruct H as [-> Hw]. cbn [pure_v] in P. destruct P as [_ P]. destruct (as_expr_dens d _ _ Eb P O) as [P1 P2].
  split; [exact I|]. split; [exact P1|]. rewrite P2. reflexivity.
Qed.

Lemma mk_sumexpr_ok ts v : mk_sumexpr ts = Ok v -> v = VExpr (ESum ts).
Proof. unfold mk_sumexpr. destruct (Nat.ltb _ _); [discriminate|]. destruct (existsb _ _); [discriminate|]. intros H. now injection H as <-. Qed.

Lemma pyadd_sum a b v : pyadd a b = Ok v -> (exists x y, a = VNum x /\ b = VNum y /\ v = VNum (x + y)) \/ exists ts, v = VExpr (ESum ts).
Proof.
  intros H. destruct a as [x|m|[m|fs|w e|ts]], b as [y|m'|[m'|fs'|w' e'|ts']]; cbn [pyadd] in H; try discriminate; [left|right..].
  - injection H as <-. eauto.
  - apply mk_sumexpr_ok in H. eauto.
  - apply mk_sumexpr_ok in H. eauto.
  - apply mk_sumexpr_ok in H. eauto.
  - apply mk_sumexpr_ok in H. eauto.
Qed.

Lemma lsumR_cons2 a l : lsumR (a :: l) = a + lsumR l.
Proof. reflexivity. Qed.

Lemma pyadd_reads a b v d : pyadd a b = Ok v -> pure_v v -> (match v with VExpr _ => pure_v a /\ pure_v b | _ => True end) ->
  unn d v = unn d a + unn d b /\ (forall ts, v = VExpr (ESum ts) -> lsumR (map fst ts) = unn (fun _ => 1) v -> True).
Proof.
  intros H P _. split; [|auto]. destruct a as [x|m|[m|fs|w e|ts]], b as [y|m'|[m'|fs'|w' e'|ts']]; cbn [pyadd] in H; try discriminate.
  - injection H as <-. reflexivity.
  - apply mk_sumexpr_ok in H. subst v. cbn [unn map fst snd]. rewrite !lsumR_cons2. cbn. ring.
  - apply mk_sumexpr_ok in H. subst v. cbn [unn map fst snd]. now rewrite lsumR_cons2.
  - apply mk_sumexpr_ok in H. subst v. cbn [unn]. rewrite map_app, lsumR_app. cbn [map fst snd]. rewrite lsumR_cons2. cbn. ring.
  - apply mk_sumexpr_ok in H. subst v. cbn [unn]. now rewrite map_app, lsumR_app.
Qed.

Lemma pyadd_pure a b v : pyadd a b = Ok v -> pure_v v ->
  (forall ts, a = VExpr (ESum ts) -> ts <> []) -> (forall ts, b = VExpr (ESum ts) -> ts <> []) -> pure_v a /\ pure_v b.
Proof.
  intros H P NA NB. destruct a as [x|m|[m|fs|w e|ts]], b as [y|m'|[m'|fs'|w' e'|ts']]; cbn [pyadd] in H; try discriminate.
  - split; exact I.
  - apply mk_sumexpr_ok in H. subst v. cbn [pure_v] in P. apply pure_sum in P. destruct P as [_ P]. inversion P as [|? ? P1 P2]; subst. inversion P2; subst. cbn in *. tauto.
  - apply mk_sumexpr_ok in H. subst v. cbn [pure_v] in P. apply pure_sum in P. destruct P as [_ P]. inversion P as [|? ? P1 P2]; subst. cbn [fst snd] in P1. split; [exact P1|].
    apply pure_sum. split; [now apply NB|exact P2].
  - apply mk_sumexpr_ok in H. subst v. cbn [pure_v] in P. apply pure_sum in P. destruct P as [_ P]. apply Forall_app in P. destruct P as [P1 P2]. inversion P2; subst. split; [|cbn in *; tauto].
    apply pure_sum. split; [now apply NA|exact P1].
  - apply mk_sumexpr_ok in H. subst v. cbn [pure_v] in P. apply pure_sum in P. destruct P as [_ P]. apply Forall_app in P. destruct P as [P1 P2].
    split; apply pure_sum; split; auto.
Qed.

Lemma run_sum on p ts : run on p = Ok (VExpr (ESum ts)) -> ts <> [] /\ exists a b, p = SAdd a b.
Proof.
  assert (KM : forall w e, mk_weighted w e <> Ok (VExpr (ESum ts))) by (intros w e H; apply mk_weighted_ok in H; destruct H; discriminate).
  assert (KS : forall l, mk_sumexpr l = Ok (VExpr (ESum ts)) -> ts <> []).
  { intros l H. pose proof (mk_sumexpr_ok _ _ H) as K. injection K as <-. unfold mk_sumexpr in H. intros ->. discriminate. }
  destruct p as [a|m|m|p q|p q|p q]; cbn [run]; intros H; try discriminate.
  - exfalso. destruct (run on p) as [a|]; [|discriminate]. cbn [bind] in H. destruct (run on q) as [b|]; [|discriminate]. cbn [bind] in H.
    destruct a as [x|m|[m|fs|w e|ts0]], b as [y|m'|[m'|fs'|w' e'|ts']]; cbn [pymul as_expr bind] in H; try discriminate; try (now apply KM in H);
      try (destruct on; try discriminate; now apply KM in H).
  - destruct (run on p) as [a|]; [|discriminate]. cbn [bind] in H. destruct (run on q) as [b|]; [|discriminate]. cbn [bind] in H. split; [|eauto].
    destruct a as [x|m|[m|fs|w e|ts0]], b as [y|m'|[m'|fs'|w' e'|ts']]; cbn [pyadd] in H; try discriminate; now apply KS in H.
  - exfalso. destruct (run on p) as [a|]; [|discriminate]. cbn [bind] in H. destruct (run on q) as [b|]; [|discriminate]. cbn [bind] in H.
    destruct a as [x|m|e]; cbn [w_helper] in H; try discriminate. destruct (as_expr b); [|discriminate]. cbn [bind] in H. now apply KM in H.
Qed.

Lemma run_mods on p v : run on p = Ok v -> (forall a, v <> VNum a) -> mods p <> [].
Proof.
  revert v. induction p as [a|m|m|p IHp q IHq|p IHp q IHq|p IHp q IHq]; cbn [run mods]; intros v H N; try discriminate.
  - injection H as <-. now specialize (N a).
  - destruct (run on p) as [a|]; [|discriminate]. cbn [bind] in H. destruct (run on q) as [b|]; [|discriminate]. cbn [bind] in H.
    intros Z. apply app_eq_nil in Z. destruct Z as [Z1 Z2].
    destruct a as [x|m|e]; [|apply (IHp _ eq_refl); [discriminate|exact Z1]..].
    destruct b as [y|m|e]; [|apply (IHq _ eq_refl); [discriminate|exact Z2]..]. cbn [pymul] in H. injection H as <-. now apply (N (x * y)).
  - destruct (run on p) as [a|]; [|discriminate]. cbn [bind] in H. destruct (run on q) as [b|]; [|discriminate]. cbn [bind] in H.
    intros Z. apply app_eq_nil in Z. destruct Z as [Z1 Z2].
    destruct a as [x|m|e]; [|apply (IHp _ eq_refl); [discriminate|exact Z1]..].
    destruct b as [y|m|e]; [|apply (IHq _ eq_refl); [discriminate|exact Z2]..]. cbn [pyadd] in H. injection H as <-. now apply (N (x + y)).
  - destruct (run on p) as [a|]; [|discriminate]. cbn [bind] in H. destruct (run on q) as [b|]; [|discriminate]. cbn [bind] in H.
    intros Z. apply app_eq_nil in Z. destruct Z as [Z1 Z2].
    destruct a as [x|m|e]; cbn [w_helper] in H; try discriminate.
    destruct b as [y|m|e]; [discriminate|apply (IHq _ eq_refl); [discriminate|exact Z2]..].
Qed.

Lemma dens_one e : pure e -> dens (fun _ => 1) e = 1.
Proof.
  induction e as [m|fs IH|w e IH|ts IH] using expr_ind'; intros P.
  - reflexivity.
  - apply pure_prod in P. rewrite dens_prod. clear -IH P. induction P as [|f fs H P IHl]; [reflexivity|]. inversion IH; subst. cbn. unfold lprodR in IHl. rewrite IHl by assumption. rewrite H2 by assumption. ring.
  - destruct P.
  - apply pure_sum in P. destruct P as [NE P]. rewrite dens_sum.
    assert (0 < lsumR (map fst ts)) as TP.
    { apply lsumR_pos; [intros Z; apply map_eq_nil in Z; congruence|]. intros w Hw. apply in_map_iff in Hw. destruct Hw as (t & <- & Ht). rewrite Forall_forall in P. now apply P. }
    assert (map (fun t : R * expr => fst t * dens (fun _ => 1) (snd t)) ts = map fst ts) as ->; [|field; lra].
    apply map_ext_in. intros t Ht. rewrite Forall_forall in IH, P. rewrite IH; [ring|now apply in_map|now apply P].
Qed.

Lemma unn_one_sum ts : pure (ESum ts) -> unn (fun _ => 1) (VExpr (ESum ts)) = lsumR (map fst ts).
Proof.
  intros P. apply pure_sum in P. destruct P as [_ P]. cbn [unn]. f_equal. apply map_ext_in. intros t Ht. rewrite Forall_forall in P. rewrite dens_one; [ring|now apply P].
Qed.

Lemma run_reads on p v : run on p = Ok v -> inner_normalised p -> pure_v v -> forall d, arith d p = unn d v.
Proof.
  revert v. induction p as [a|m|m|p IHp q IHq|p IHp q IHq|p IHp q IHq]; cbn [run inner_normalised arith]; intros v H N P d.
  - injection H as <-. reflexivity.
  - injection H as <-. reflexivity.
  - injection H as <-. reflexivity.
  - destruct (run on p) as [a|] eqn:Ea; [|discriminate]. cbn [bind] in H. destruct (run on q) as [b|] eqn:Eb; [|discriminate]. cbn [bind] in H.
    destruct N as (Np & Nq & Sp & Sq).
    assert (KA : pure_v a -> wsum_one a).
    { intros Pa. destruct a as [x|m|[m|fs|w e|ts]]; try exact I. destruct (run_sum _ _ _ Ea) as [_ (a' & b' & Ep)]. cbn [wsum_one].
      rewrite <- unn_one_sum by exact Pa. rewrite <- (IHp _ eq_refl Np Pa). apply (Sp _ _ Ep). eapply run_mods; [exact Ea|discriminate]. }
    assert (KB : pure_v b -> wsum_one b).
    { intros Pa. destruct b as [x|m|[m|fs|w e|ts]]; try exact I. destruct (run_sum _ _ _ Eb) as [_ (a' & b' & Ep)]. cbn [wsum_one].
      rewrite <- unn_one_sum by exact Pa. rewrite <- (IHq _ eq_refl Nq Pa). apply (Sq _ _ Ep). eapply run_mods; [exact Eb|discriminate]. }
    assert (PP : pure_v a /\ pure_v b).
    { clear -H P Ea Eb. assert (KW : forall w e e', mk_weighted w (EProd [e; e']) = Ok v -> pure e /\ pure e' /\ 0 < w).
      { intros w e e' E. apply mk_weighted_ok in E. destruct E as [-> Hw]. cbn [pure_v] in P. destruct P as [_ P]. apply pure_prod in P. inversion P as [|? ? P1 P2]; subst. inversion P2; subst. auto. }
      assert (K1 : forall w e, mk_weighted w e = Ok v -> pure e).
      { intros w e E. apply mk_weighted_ok in E. destruct E as [-> Hw]. apply P. }
      assert (KP : forall e e', Ok (VExpr (EProd [e; e'])) = Ok v -> pure e /\ pure e').
      { intros e e' E. injection E as <-. cbn [pure_v] in P. apply pure_prod in P. inversion P as [|? ? P1 P2]; subst. inversion P2; subst. auto. }
      assert (KF : forall fs e', Ok (VExpr (EProd (fs ++ [e']))) = Ok v -> pure (EProd fs) /\ pure e').
      { intros fs e' E. injection E as <-. cbn [pure_v] in P. apply pure_prod in P. apply Forall_app in P. destruct P as [P1 P2]. inversion P2; subst. split; [now apply pure_prod|auto]. }
      assert (PV : forall e, pure e -> pure_v (VExpr e)) by (intros [m|fs|w e|ts] Q; [exact Q|exact Q|destruct Q|exact Q]).
      destruct a as [x|m|[m|fs|w e|ts]].
      - split; [exact I|]. destruct b as [y|m|[m|fs|w e|ts]]; cbn [pymul] in H; try exact I; [now apply K1 in H|discriminate|now apply K1 in H].
      - split; [exact I|]. cbn [pymul] in H. destruct on; [|discriminate]. destruct b as [y|m'|[m'|fs|w e|ts]]; try exact I.
        + apply KP in H. apply H.
        + apply KW in H. split; apply H.
        + apply KP in H. apply H.
      - split; [exact I|]. cbn [pymul] in H. destruct b as [y|m'|e']; try exact I. cbn [as_expr bind] in H. apply KP in H. apply PV, H.
      - cbn [pymul] in H. destruct b as [y|m'|e']; cbn [as_expr bind] in H.
        + split; [now apply K1 in H|exact I].
        + apply KF in H. split; [apply H|exact I].
        + apply KF in H. split; [apply H|apply PV, H].
      - cbn [pymul] in H. destruct b as [y|m'|e']; cbn [as_expr bind] in H; [discriminate| |]; apply KW in H; (split; [split; apply H|]); [exact I|apply PV, H].
      - cbn [pymul] in H. destruct b as [y|m'|e']; cbn [as_expr bind] in H.
        + split; [now apply K1 in H|exact I].
        + apply KP in H. split; [apply H|exact I].
        + apply KP in H. split; [apply H|apply PV, H]. }
    destruct PP as [Pa Pb]. destruct (pymul_reads on a b v d H P (KA Pa) (KB Pb)) as (_ & _ & ->).
    rewrite (IHp _ eq_refl Np Pa), (IHq _ eq_refl Nq Pb). reflexivity.
  - destruct (run on p) as [a|] eqn:Ea; [|discriminate]. cbn [bind] in H. destruct (run on q) as [b|] eqn:Eb; [|discriminate]. cbn [bind] in H.
    destruct N as (Np & Nq). destruct (pyadd_pure a b v H P) as [Pa Pb].
    { intros ts ->. apply (run_sum on p ts Ea). }
    { intros ts ->. apply (run_sum on q ts Eb). }
    destruct (pyadd_reads a b v d H P) as [-> _]; [destruct v; auto|]. rewrite (IHp _ eq_refl Np Pa), (IHq _ eq_refl Nq Pb). reflexivity.
  - destruct (run on p) as [a|] eqn:Ea; [|discriminate]. cbn [bind] in H. destruct (run on q) as [b|] eqn:Eb; [|discriminate]. cbn [bind] in H.
    destruct N as (Np & Nq & _ & Sq).
    assert (KB : pure_v b -> wsum_one b).
    { intros Pa. destruct b as [x|m|[m|fs|w e|ts]]; try exact I. destruct (run_sum _ _ _ Eb) as [_ (a' & b' & Ep)]. cbn [wsum_one].
      rewrite <- unn_one_sum by exact Pa. rewrite <- (IHq _ eq_refl Nq Pa). apply (Sq _ _ Ep). eapply run_mods; [exact Eb|discriminate]. }
    assert (Pb : pure_v b).
    { destruct a as [x|m|e]; cbn [w_helper] in H; try discriminate. destruct b as [y|m|e]; [discriminate|exact I|]. cbn [as_expr bind] in H.
      apply mk_weighted_ok in H. destruct H as [-> Hw]. cbn [pure_v] in P. destruct P as [_ P]. destruct e; [exact P|exact P|destruct P|exact P]. }
    destruct (w_helper_reads a b v d H P (KB Pb)) as (Pa & _ & ->). rewrite (IHp _ eq_refl Np Pa), (IHq _ eq_refl Nq Pb). reflexivity.
Qed.

