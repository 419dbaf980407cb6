(** Proofs on the joint encoder. *)
From Coq Require Import List Arith Bool Reals Lia Lra Permutation FunctionalExtensionality.
From Verif Require Import Base ScopeModel ScopeProofs CircuitModel CircuitSpec CircuitBasics CircuitEval Integral CircuitMarg CircuitProps
  SampleModel SampleExp EmModel SplitModel LayerModel LayerSpec FactorModel FactorProofs FactorTop
  StackModel StackSpec StackProofs StackDist StackTop StackRat StackNan StackRatTop StackEinSpec StackEin StackEinTop ApcModel ApcSpec ApcEncModel.
From Verif Require P_Einet.
Import ListNotations.
Local Open Scope R_scope.

Lemma mem_In v l : mem v l = true <-> In v l.
Proof.
  unfold mem. rewrite existsb_exists. split; [intros (u & A & B); apply Nat.eqb_eq in B; now subst|].
  intros H. exists v. split; [exact H|apply Nat.eqb_refl].
Qed.
Lemma scope_fits_spec l ex : scope_fits l ex = true ->
  (forall v, In v (query (l_scope l)) <-> In v ex) /\ length (query (l_scope l)) = length ex.
Proof.
  unfold scope_fits. rewrite !andb_true_iff, !forallb_forall, Nat.eqb_eq. intros [[A B] C]. split; [|exact C].
  intros v. split; intros H; [apply mem_In, A|apply mem_In, B]; exact H.
Qed.

Section Enc.
  Variables (nx nz : nat) (xl zl : leaf) (c : ein_cfg) (p : ein_par) (d : draw) (e : jenc).
  Hypothesis OKx : leaf_okb xl = true.
  Hypothesis OKz : leaf_okb zl = true.
  Hypothesis Rx : l_rep xl = ei_reps c.
  Hypothesis Rz : l_rep zl = ei_reps c.
  Hypothesis EE : mk_joint_encoder nx nz xl zl c p d = Ok e.

  Let c' := mkEin 1 (ei_sums c) (ei_leaves c) (ei_depth c) (ei_reps c) (ei_type c) true.

  Lemma enc_inv : (0 < nx)%nat /\ (0 < nz)%nat /\ scope_fits xl (x_cols nx) = true /\ scope_fits zl (z_cols nx nz) = true /\
    exists st, mk_einet [MLeaf xl; MLeaf zl] c' p d = Ok st /\ e = mkJenc nx nz st.
  Proof.
    unfold mk_joint_encoder in EE. destruct (Nat.eqb_spec nx 0); [discriminate|]. destruct (Nat.eqb_spec nz 0); [discriminate|].
    destruct (scope_fits xl (x_cols nx)); [|discriminate]. destruct (scope_fits zl (z_cols nx nz)); [|discriminate]. cbn [negb] in EE.
    fold c' in EE. destruct (mk_einet _ c' p d) as [st|] eqn:E; [|discriminate]. injection EE as <-.
    repeat (split; [lia || reflexivity|]). exists st. split; reflexivity.
  Qed.

  Lemma enc_leaves : exists sc, leaf_input [MLeaf xl; MLeaf zl] = Ok (MCat false sc [MLeaf xl; MLeaf zl]) /\
    leaves_ok [MLeaf xl; MLeaf zl] (MCat false sc [MLeaf xl; MLeaf zl]) (mkShape (nx + nz) (l_ch xl) (ei_reps c)) (ei_reps c) /\
    (forall v, In v (query sc) <-> In v (x_cols nx ++ z_cols nx nz)) /\ length (query sc) = (nx + nz)%nat.
  Proof.
    destruct enc_inv as (Px & Pz & Fx & Fz & st & E & _).
    apply scope_fits_spec in Fx as [Qx Lx]. apply scope_fits_spec in Fz as [Qz Lz].
    unfold x_cols, z_cols in *. rewrite seq_length in Lx, Lz.
    pose proof (proj1 (leaf_okb_spec xl) OKx) as (Vx & _ & Cx & _). pose proof (proj1 (leaf_okb_spec zl) OKz) as (Vz & _ & Cz & _).
    assert (l_ch zl = l_ch xl) as HC.
    { unfold mk_einet in E. repeat match type of E with (if ?b then _ else _) = _ => destruct b; [discriminate|] end.
      destruct (join_all _) as [sc0|]; [|discriminate]. cbn [bind] in E. destruct (Nat.ltb _ _); [discriminate|].
      unfold factorize_leaves, leaf_input, mk_cat in E. cbn [forallb out_shape channels map] in E.
      destruct (Nat.eqb_spec (l_ch zl) (l_ch xl)) as [Q|Q]; [exact Q|].
      rewrite Nat.eqb_refl in E. cbn in E. discriminate. }
    assert (Forall valid [l_scope xl; l_scope zl]) as V2 by (constructor; [assumption|constructor; [assumption|constructor]]).
    destruct (join_all_ok [l_scope xl; l_scope zl] ltac:(discriminate) V2) as (sc & J & Vs & Qs & _).
    destruct (all_pairwise_disjoint_spec [l_scope xl; l_scope zl] V2) as (b & D & Hb).
    assert (b = true) as ->.
    { apply Hb. constructor; [|constructor; constructor]. constructor; [|constructor].
      intros v Hv Hw. apply Qx, in_seq in Hv. apply Qz, in_seq in Hw. lia. }
    assert (leaf_input [MLeaf xl; MLeaf zl] = Ok (MCat false sc [MLeaf xl; MLeaf zl])) as LI.
    { unfold leaf_input, mk_cat. cbn [forallb out_shape channels map scope_of]. rewrite HC, Nat.eqb_refl. cbn [andb]. rewrite D. cbn [bind]. rewrite J. reflexivity. }
    assert (forall v, In v (query sc) <-> In v (seq 0 nx ++ seq nx nz)) as Q2.
    { intros v. rewrite Qs, in_app_iff, <- Qx, <- Qz. split.
      - intros (t & [<-|[<-|[]]] & H); auto.
      - intros [H|H]; [exists (l_scope xl)|exists (l_scope zl)]; cbn; auto. }
    assert (NoDup (query sc)) as NDs by apply Vs.
    assert (length (query sc) = (nx + nz)%nat) as LS.
    { transitivity (length (seq 0 nx ++ seq nx nz)); [|now rewrite app_length, !seq_length].
      apply Permutation_length. apply NoDup_Permutation; [exact NDs| |exact Q2].
      rewrite <- (Nat.add_0_l nx) at 2. rewrite <- seq_app. apply seq_NoDup. }
    exists sc. split; [exact LI|]. split; [|split; assumption].
    constructor.
    - constructor; [now constructor|constructor; [now constructor|constructor]].
    - exact LI.
    - cbn. repeat split. discriminate.
    - cbn. rewrite HC, Rx, Rz, !Nat.eqb_refl. cbn. now rewrite Lx, Lz.
    - cbn. rewrite Lx, Lz, Nat.add_0_r. symmetry. exact LS.
    - left. reflexivity.
  Qed.
End Enc.

Definition finite_on (l : leaf) (x : row) : Prop :=
  forall f c r, (f < length (query (l_scope l)))%nat -> (c < l_ch l)%nat -> (r < l_rep l)%nat -> leaf_score x l f c r <> NInf.

Fixpoint upds (x : row) (vs : list nat) (z : list R) : row :=
  match vs, z with v :: vs', a :: z' => upds (upd x v (Some a)) vs' z' | _, _ => x end.

Lemma sums_over_rows D : forall vs (g : row -> R) x u, sums_over D vs g x u ->
  sums_rows (map D vs) (fun z => g (upds x vs z)) u.
Proof.
  induction vs as [|v vs IH]; cbn; intros g x u H; [exact H|].
  destruct H as (h & A & B). exists h. split; [|exact B]. intros a. exact (IH g (upd x v (Some a)) (h a) (A a)).
Qed.

Lemma upds_other : forall vs z x v, ~ In v vs -> upds x vs z v = x v.
Proof.
  induction vs as [|u vs IH]; intros [|a z] x v H; cbn; try reflexivity. cbn in H.
  rewrite IH by tauto. apply upd_other. intros ->. tauto.
Qed.
Lemma upds_seq : forall n k z x i, length z = n -> (i < n)%nat -> upds x (seq k n) z (k + i)%nat = nth i (map Some z) None.
Proof.
  induction n as [|n IH]; intros k [|a z] x i L Hi; cbn in *; try lia.
  destruct i as [|i].
  - rewrite Nat.add_0_r, upds_other; [apply upd_same|]. rewrite in_seq. lia.
  - replace (k + S i)%nat with (S k + i)%nat by lia. apply IH; lia.
Qed.

Lemma ev_xz e x z : length x = je_nx e -> length z = je_nz e ->
  forall v, evidence_row e (Some (map Some x)) (Some (map Some z)) v = upds (evidence_row e (Some (map Some x)) None) (z_cols (je_nx e) (je_nz e)) z v.
Proof.
  intros Lx Lz v. unfold evidence_row, z_cols. cbn [block].
  destruct (lt_dec v (je_nx e)) as [H|H].
  - rewrite upds_other by (rewrite in_seq; lia). rewrite !app_nth1 by (rewrite map_length; lia). reflexivity.
  - destruct (lt_dec v (je_nx e + je_nz e)) as [H2|H2].
    + replace v with (je_nx e + (v - je_nx e))%nat at 2 by lia. rewrite upds_seq by lia.
      rewrite app_nth2 by (rewrite map_length; lia). rewrite map_length. now rewrite Lx.
    + rewrite upds_other by (rewrite in_seq; lia).
      rewrite !nth_overflow; [reflexivity|rewrite app_length, map_length, repeat_length; lia|rewrite app_length, !map_length; lia].
Qed.
Lemma ev_x e x : length x = je_nx e ->
  forall v, evidence_row e (Some (map Some x)) None v = upds (fun _ => None) (x_cols (je_nx e)) x v.
Proof.
  intros Lx v. unfold evidence_row, x_cols. cbn [block].
  destruct (lt_dec v (je_nx e)) as [H|H].
  - rewrite app_nth1 by (rewrite map_length; lia). replace v with (0 + v)%nat at 2 by lia. now rewrite upds_seq by lia.
  - rewrite upds_other by (rewrite in_seq; lia). rewrite app_nth2, nth_repeat by (rewrite map_length; lia). reflexivity.
Qed.
Lemma sums_rows_ext ds : forall f g u, (forall z, length z = length ds -> f z = g z) -> sums_rows ds f u -> sums_rows ds g u.
Proof.
  induction ds as [|d ds IH]; cbn; intros f g u H; [now rewrite H|]. intros (h & A & B). exists h. split; [|exact B].
  intros a. apply (IH (fun l => f (a :: l))); [|apply A]. intros z Hz. apply H. cbn. now rewrite Hz.
Qed.

Lemma cat2_fin sc xl zl x C R0 :
  l_ch xl = C -> l_ch zl = C -> l_rep xl = R0 -> l_rep zl = R0 -> finite_on xl x -> finite_on zl x ->
  forall f ch r, in_shape (mkShape (length (query (l_scope xl)) + length (query (l_scope zl))) C R0) f ch r ->
  loglik (MCat false sc [MLeaf xl; MLeaf zl]) x f ch r <> NInf.
Proof.
  intros <- C2 <- R2 Fx Fz f ch r (A & B & E). cbn [features channels repetitions] in *.
  unfold loglik. cbn [evalm map catpick out_shape features channels].
  destruct (Nat.ltb_spec f (length (query (l_scope xl)))) as [H|H]; [now apply Fx|].
  destruct (Nat.ltb_spec (f - length (query (l_scope xl))) (length (query (l_scope zl)))) as [H2|H2]; [|lia].
  apply Fz; lia.
Qed.
Lemma set_nan_id vs x : (forall v, In v vs -> x v = None) -> set_nan vs x = x.
Proof.
  intros H. apply functional_extensionality. intros v. unfold set_nan. destruct (existsb _ vs) eqn:E; [|reflexivity].
  apply existsb_exists in E as (u & A & B). apply Nat.eqb_eq in B. subst u. now rewrite H.
Qed.

Lemma enc_main nx nz xl zl c p d e D :
  leaf_okb xl = true -> leaf_okb zl = true -> l_rep xl = ei_reps c -> l_rep zl = ei_reps c ->
  mk_joint_encoder nx nz xl zl c p d = Ok e -> draw_ok (nx + nz) (ei_depth c) d ->
  leaf_norm D xl -> leaf_norm D zl ->
  exists (f : list R -> list R -> R) (g : list R -> R),
    (forall x z, 0 <= f x z) /\ (forall x, 0 <= g x) /\
    (forall x z, length x = nx -> length z = nz ->
       finite_on xl (evidence_row e (Some (map Some x)) (Some (map Some z))) -> finite_on zl (evidence_row e (Some (map Some x)) (Some (map Some z))) ->
       0 < f x z /\ joint_log_likelihood e (map Some x) (map Some z) = Ok (FFin (ln (f x z)))) /\
    (forall x, length x = nx ->
       finite_on xl (evidence_row e (Some (map Some x)) None) -> finite_on zl (evidence_row e (Some (map Some x)) None) ->
       0 < g x /\ log_likelihood_x e (map Some x) = Ok (FFin (ln (g x)))) /\
    (forall x, length x = nx -> sums_rows (map D (z_cols nx nz)) (f x) (g x)) /\
    sums_rows (map D (x_cols nx)) g 1.
Proof.
  intros OKx OKz Rx Rz EE Hd Nx Nz.
  destruct (enc_inv nx nz xl zl c p d e Rx Rz EE) as (Px & Pz & Fx & Fz & st & E & Ee).
  destruct (enc_leaves nx nz xl zl c p d e OKx OKz Rx Rz EE) as (sc & _ & HL & Q & LS).
  set (m := MCat false sc [MLeaf xl; MLeaf zl]) in *.
  set (c' := mkEin 1 (ei_sums c) (ei_leaves c) (ei_depth c) (ei_reps c) (ei_type c) true) in *.
  change (ei_reps c) with (ei_reps c') in HL.
  assert (LQ : length (query (scope_of m)) = (nx + nz)%nat) by exact LS.
  assert (Hd' : draw_ok (length (query (scope_of m))) (ein_fdepth c' (length (query (scope_of m)))) d) by (rewrite LQ; exact Hd).
  assert (Hn : leaves_norm D m) by (unfold leaves_norm, m; cbn [leaves_of app]; repeat constructor; assumption).
  pose proof (ein_dist _ c' p d m _ HL Hd' st D E Hn) as [ID NN].
  pose proof (fun x => ein_value _ c' p d m _ HL st x E) as EV.
  set (dn := ein_density c' p m (mkShape (nx + nz) (l_ch xl) (ei_reps c)) (fc_mat (k_fact st))) in *.
  apply scope_fits_spec in Fx as [Qx Lx]. apply scope_fits_spec in Fz as [Qz Lz].
  assert (HC : l_ch zl = l_ch xl).
  { pose proof (lo_built _ _ _ _ HL). pose proof (lo_shape _ _ _ _ HL) as SH. unfold m in SH.
    pose proof (lo_in _ _ _ _ HL) as LI. unfold leaf_input, mk_cat in LI. cbn [forallb out_shape channels map] in LI.
    destruct (Nat.eqb_spec (l_ch zl) (l_ch xl)) as [Y|Y]; [exact Y|]. rewrite Nat.eqb_refl in LI. cbn in LI. discriminate. }
  assert (Je : je_nx e = nx /\ je_nz e = nz /\ je_st e = st) by (subst e; repeat split). destruct Je as (Jx & Jz & Js).
  unfold x_cols, z_cols in Lx, Lz. rewrite seq_length in Lx, Lz.
  assert (VAL : forall x, finite_on xl x -> finite_on zl x -> 0 < dn x /\ enc_ll e x = Ok (FFin (ln (dn x)))).
  { intros x Gx Gz. destruct (EV x) as (t & Et & _ & P & V).
    - pose proof (cat2_fin sc xl zl x (l_ch xl) (ei_reps c) eq_refl HC Rx Rz Gx Gz) as CF. rewrite Lx, Lz in CF. exact CF.
    - split; [exact P|]. unfold enc_ll. rewrite Js, Et. cbn [bind]. now rewrite V. }
  assert (PRf : forall y, pr (lfrom (dn y)) = dn y) by (intros y; apply pr_lfrom, NN).
  assert (NDz : NoDup (z_cols nx nz)) by apply seq_NoDup. assert (NDx : NoDup (x_cols nx)) by apply seq_NoDup.
  assert (MARG : forall ws x, NoDup ws -> incl ws (x_cols nx ++ z_cols nx nz) -> (forall v, In v ws -> x v = None) ->
            sums_rows (map D ws) (fun z => dn (upds x ws z)) (dn x)).
  { intros ws x ND IN NO. apply sums_over_rows.
    pose proof (is_dist_marginal D _ _ ID ws ND ltac:(intros v Hv; apply Q, IN, Hv) x) as S1. rewrite (set_nan_id ws x NO) in S1.
    rewrite PRf in S1. replace (fun y => dn y) with (fun y => pr (lfrom (dn y))) by (apply functional_extensionality; exact PRf).
    replace dn with (fun y => pr (lfrom (dn y))) at 1 by (apply functional_extensionality; exact PRf). exact S1. }
  exists (fun x z => dn (evidence_row e (Some (map Some x)) (Some (map Some z)))), (fun x => dn (evidence_row e (Some (map Some x)) None)).
  split; [intros; apply NN|]. split; [intros; apply NN|]. split; [|split; [|split]].
  - intros x z Hx Hz Gx Gz. destruct (VAL _ Gx Gz) as [P V]. split; [exact P|]. unfold joint_log_likelihood. rewrite !map_length, Jx, Jz, Hx, Hz, !Nat.eqb_refl. exact V.
  - intros x Hx Gx Gz. destruct (VAL _ Gx Gz) as [P V]. split; [exact P|]. unfold log_likelihood_x. rewrite map_length, Jx, Hx, Nat.eqb_refl. exact V.
  - intros x Hx. apply sums_rows_ext with (f := fun z => dn (upds (evidence_row e (Some (map Some x)) None) (z_cols nx nz) z)).
    + intros z Lz'. unfold z_cols in Lz'. rewrite map_length, seq_length in Lz'. f_equal. apply functional_extensionality. intros v. rewrite ev_xz by lia. now rewrite Jx, Jz.
    + apply MARG; [exact NDz|apply incl_appr, incl_refl|]. intros v Hv. unfold z_cols in Hv. apply in_seq in Hv.
      rewrite ev_x by lia. rewrite upds_other; [reflexivity|]. unfold x_cols. rewrite in_seq. lia.
  - apply sums_rows_ext with (f := fun x => dn (upds (fun _ => None) (x_cols nx) x)).
    + intros x Lx'. unfold x_cols in Lx'. rewrite map_length, seq_length in Lx'. f_equal. apply functional_extensionality. intros v. rewrite ev_x by lia. now rewrite Jx.
    + replace 1 with (dn (fun _ => None)).
      * apply MARG; [exact NDx|apply incl_appl, incl_refl|reflexivity].
      * rewrite <- PRf. rewrite (d_total _ _ _ ID) by reflexivity. unfold pr. apply exp_0.
Qed.
