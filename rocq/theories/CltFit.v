(** Public properties of Chow-Liu tree leaves; estimation of the tables. *)
From Coq Require Import List Arith ZArith Bool Reals Lia Lra Permutation.
From Verif Require Import Base CircuitModel LeafModel LeafProofs SampleModel SampleSpec SampleExp LayerProofs MleProofs EmProofs HistModel HistProofs CltModel CltSpec CltDfs CltElim CltTop CltPrim.
Import ListNotations.
Local Open Scope R_scope.

Lemma mk_cltree_spec query C P K alpha parents cpt root : rooted_tree parents root ->
  (exists t, mk_cltree query C P K alpha parents cpt = Ok t) <->
  (2 <= K)%nat /\ 0 < alpha /\ (2 <= length query)%nat /\ length parents = length query.
Proof.
  intros T. unfold mk_cltree. destruct (orders_tree parents root T) as (pre & -> & _). cbn [bind].
  destruct (Nat.ltb_spec K 2); [split; [intros [t E]; discriminate|lia]|].
  destruct (Rle_lt_dec alpha 0) as [La|La].
  - rewrite rle_true by assumption. split; [intros [t E]; discriminate|intros (_ & ? & _); lra].
  - rewrite rle_false by assumption. destruct (Nat.ltb_spec (length query) 2); [split; [intros [t E]; discriminate|lia]|].
    destruct (Nat.eqb_spec (length parents) (length query)); cbn [negb]; split; try (intros [t E]; discriminate); eauto; lia.
Qed.

Lemma mk_cltree_inv query C P K alpha parents cpt t : mk_cltree query C P K alpha parents cpt = Ok t ->
  (2 <= K)%nat /\ 0 < alpha /\ (2 <= length query)%nat /\ length parents = length query /\
  exists pre, compute_orders parents = Ok pre /\ t = mkClt query C P K alpha parents pre cpt.
Proof.
  unfold mk_cltree. destruct (Nat.ltb_spec K 2); [discriminate|].
  destruct (Rle_lt_dec alpha 0) as [La|La]; [rewrite rle_true by assumption; discriminate|]. rewrite rle_false by assumption.
  destruct (Nat.ltb_spec (length query) 2); [discriminate|]. destruct (Nat.eqb_spec (length parents) (length query)); [|discriminate].
  cbn [negb]. destruct (compute_orders parents) as [pre|]; [|discriminate]. cbn. intros [= <-]. repeat split; auto; try lia. eauto.
Qed.

Lemma row_ok_spec F K x : row_ok F K x = true <-> exists ob, observes F K x ob.
Proof.
  unfold row_ok. rewrite forallb_forall. split.
  - intros H. exists (obs x). intros i Hi. specialize (H i ltac:(apply in_seq; lia)). unfold obs, cell_ok in *.
    destruct (x i) as [a|]; [|reflexivity]. destruct (asnat a) as [k|] eqn:E; [|discriminate]. apply Nat.ltb_lt in H.
    split; [assumption|]. apply asnat_Some in E. congruence.
  - intros [ob H] i Hi. apply in_seq in Hi. specialize (H i ltac:(lia)). unfold cell_ok. destruct (ob i) as [k|].
    + destruct H as [Hk ->]. rewrite asnat_INR. now apply Nat.ltb_lt.
    + now rewrite H.
Qed.
Lemma observes_obs F K x ob i : observes F K x ob -> (i < F)%nat -> obs x i = ob i.
Proof.
  intros H Hi. specialize (H i Hi). unfold obs. destruct (ob i) as [k|]; [destruct H as [_ ->]; apply asnat_INR|now rewrite H].
Qed.
Lemma missing_obs F K x ob vs : observes F K x ob -> missing_of F ob vs -> missing_of F (obs x) vs.
Proof.
  intros H [N M]. split; [assumption|]. intros v. rewrite M. split; intros [H1 H2]; (split; [assumption|]);
    rewrite (observes_obs F K x ob) in * by assumption; assumption.
Qed.

Section Leaf.
  Variables (query : list nat) (C P K : nat) (alpha : R) (parents : list Z) (cpt : nat -> nat -> nat -> nat -> nat -> lval) (root : nat) (t : cltree).
  Hypothesis HT : mk_cltree query C P K alpha parents cpt = Ok t.
  Hypothesis T : rooted_tree parents root.
  Let F := length query.
  Let q (c r : nat) : nat -> nat -> nat -> R := fun i a b => pr (cpt i c r a b).

  Lemma parts : (0 < K)%nat /\ length parents = F /\ exists pre, good_order parents root pre /\ t = mkClt query C P K alpha parents pre cpt.
  Proof.
    destruct (mk_cltree_inv _ _ _ _ _ _ _ _ HT) as (H1 & H2 & H3 & H4 & pre & E & ->). split; [lia|]. split; [assumption|].
    exists pre. split; [now apply good_order_unique|reflexivity].
  Qed.

  Lemma loglik_raises rows : (exists x, In x rows /\ ~ exists ob, observes F K x ob) -> clt_loglik t rows = Err.
  Proof.
    destruct parts as (Kp & L & pre & G & ->). intros (x & Hx & N). unfold clt_loglik, t_F. cbn [t_K t_query t_parents].
    destruct (forallb (row_ok (length query) K) rows) eqn:E; [|reflexivity]. exfalso. apply N.
    apply row_ok_spec. rewrite forallb_forall in E. now apply E.
  Qed.

  Lemma loglik_spec rows obsv : Forall2 (observes F K) rows obsv ->
    exists lls, clt_loglik t rows = Ok lls /\ length lls = length rows /\
      forall b x ob, nth_error rows b = Some x -> nth_error obsv b = Some ob -> exists ll, nth_error lls b = Some ll /\
        forall c r, (forall f, f <> 0%nat -> ll f c r = Fin 0) /\
          forall vs y, missing_of F ob vs -> (forall i v, (i < F)%nat -> ob i = Some v -> y i = v) ->
            pr (ll 0%nat c r) = fsum K vs (tree_prob parents (q c r)) y.
  Proof.
    destruct parts as (Kp & L & pre & G & Et). rewrite Et. intros H2. unfold clt_loglik. unfold t_F. cbn [t_K t_query t_parents t_pre].
    assert (forallb (row_ok (length query) K) rows = true) as ->.
    { apply forallb_forall. intros x Hx. apply row_ok_spec. destruct (In_nth_error _ _ Hx) as (n & En).
      clear - H2 En. revert n En. induction H2 as [|a b la lb Hab _ IH]; intros [|n] En; cbn in En; try discriminate.
      - injection En as <-. eauto. - eauto. }
    rewrite (has_structure_tree _ _ T). cbn [negb]. set (fast := forallb _ rows).
    eexists. split; [reflexivity|]. split; [apply map_length|]. intros b x ob Hx Hob.
    eexists. split; [exact (map_nth_error _ _ _ Hx)|]. intros c r. cbv beta. split.
    - intros f Hf. destruct (Nat.eqb_spec f 0); [contradiction|reflexivity].
    - intros vs y M Hy. cbn [Nat.eqb].
      assert (observes F K x ob) as OB.
      { clear - H2 Hx Hob. revert b Hx Hob. induction H2 as [|a b' la lb Hab _ IH]; intros [|n] Hx Hob; cbn in *; try discriminate.
        - injection Hx as <-. now injection Hob as <-. - eauto. }
      assert (forall i v, (i < length parents)%nat -> obs x i = Some v -> y i = v) as Hy'.
      { intros i v Hi E. rewrite L in Hi. rewrite (observes_obs F K x ob) in E by assumption. now apply Hy. }
      assert (missing_of (length parents) (obs x) vs) as M' by (rewrite L; eapply missing_obs; eassumption).
      change (entry _ c r) with (fun i xi xp => cpt i c r xi xp). destruct fast eqn:Ef.
      + unfold fast in Ef. rewrite forallb_forall in Ef. pose proof (Ef x (nth_error_In _ _ Hx)) as Cx.
        unfold is_complete in Cx. rewrite forallb_forall in Cx.
        assert (forall i, (i < F)%nat -> exists v, ob i = Some v) as Full.
        { intros i Hi. specialize (Cx i ltac:(apply in_seq; lia)). specialize (OB i Hi). destruct (ob i) as [v|]; [eauto|].
          rewrite OB in Cx. discriminate. }
        assert (vs = []) as ->.
        { destruct vs as [|v vs]; [reflexivity|]. destruct M as [_ M]. destruct (proj1 (M v) (or_introl eq_refl)) as [Hv Ev].
          destruct (Full v Hv) as (? & E). congruence. }
        cbn [fsum]. fold F. rewrite <- L. rewrite fast_spec.
        apply (tree_prob_reads parents (fun i a b => cpt i c r a b) root T). intros i Hi. rewrite L in Hi.
        rewrite (observes_obs F K x ob) by assumption. destruct (Full i Hi) as (v & Ev). rewrite Ev. symmetry. now apply Hy.
      + now apply (slow_spec K parents (fun i a b => cpt i c r a b) root pre Kp T G).
  Qed.

  (** constant channel index *)
  Lemma chan_ok c : forallb (fun f => Nat.eqb ((fun _ : nat => c) f) ((fun _ : nat => c) 0%nat)) (seq 0 F) = true.
  Proof. apply forallb_forall. intros; apply Nat.eqb_refl. Qed.

  Lemma sample_expects D junk c r ch mask x ob vs y g : (forall f, (f < F)%nat -> ch f = c) ->
    observes F K x ob -> missing_of F ob vs -> (forall i v, (i < F)%nat -> ob i = Some v -> y i = v) ->
    first_cells F g -> fsum K vs (tree_prob parents (q c r)) y <> 0 ->
    expects D (clt_sample false junk t ch r mask x) g
      (fsum K vs (fun z => tree_prob parents (q c r) z * g (fill x mask z)) y / fsum K vs (tree_prob parents (q c r)) y).
  Proof.
    destruct parts as (Kp & L & pre & G & Et). rewrite Et. intros Hch OB M Hy Hg HZ. unfold clt_sample, t_F. cbn [t_K t_query t_parents t_pre].
    rewrite (has_structure_tree _ _ T). cbn [negb]. 
    destruct (mk_cltree_inv _ _ _ _ _ _ _ _ HT) as (_ & _ & L2 & _ & _). fold F in L2.
    assert (ch 0%nat = c) as E0 by (apply Hch; lia).
    assert (forallb (fun f => Nat.eqb (ch f) (ch 0%nat)) (seq 0 (length query)) = true) as ->.
    { apply forallb_forall. intros f Hf. apply in_seq in Hf. rewrite Hch, E0 by (unfold F; lia). apply Nat.eqb_refl. }
    cbn [negb]. rewrite (proj2 (row_ok_spec (length query) K x)) by (exists ob; exact OB). cbn [negb]. rewrite E0.
    change (entry _ c r) with (fun i xi xp => cpt i c r xi xp).
    eapply expects_bind.
    - apply (clt_assign_exp K parents (fun i a b => cpt i c r a b) root pre Kp T G D (obs x) vs y junk (fun z => g (fill x mask z))).
      + rewrite L. eapply missing_obs; eassumption.
      + intros i v Hi E. rewrite L in Hi. rewrite (observes_obs F K x ob) in E by assumption. now apply Hy.
      + intros z z' Hzz. rewrite L in Hzz. apply Hg. intros j Hj. unfold fill. destruct (x j); [reflexivity|].
        destruct (mask j); [|reflexivity]. now rewrite Hzz.
      + exact HZ.
    - intros a _. cbn [expects]. apply Hg. intros j Hj. unfold fill. destruct (x j); reflexivity.
  Qed.

  Lemma mpe_max junk c r ch mask x ob : (forall f, (f < F)%nat -> ch f = c) -> observes F K x ob ->
    exists z, clt_sample true junk t ch r mask x = Ret (fill x mask z) /\ agrees F K ob z /\
      forall z', agrees F K ob z' -> tree_prob parents (q c r) z' <= tree_prob parents (q c r) z.
  Proof.
    destruct parts as (Kp & L & pre & G & Et). rewrite Et. intros Hch OB. unfold clt_sample, t_F. cbn [t_K t_query t_parents t_pre].
    rewrite (has_structure_tree _ _ T). cbn [negb]. 
    destruct (mk_cltree_inv _ _ _ _ _ _ _ _ HT) as (_ & _ & L2 & _ & _). fold F in L2.
    assert (ch 0%nat = c) as E0 by (apply Hch; lia).
    assert (forallb (fun f => Nat.eqb (ch f) (ch 0%nat)) (seq 0 (length query)) = true) as ->.
    { apply forallb_forall. intros f Hf. apply in_seq in Hf. rewrite Hch, E0 by (unfold F; lia). apply Nat.eqb_refl. }
    cbn [negb]. rewrite (proj2 (row_ok_spec (length query) K x)) by (exists ob; exact OB). cbn [negb]. rewrite E0.
    change (entry _ c r) with (fun i xi xp => cpt i c r xi xp).
    destruct (clt_assign_max K parents (fun i a b => cpt i c r a b) root pre Kp T G (obs x) junk) as (z & E & A & Mx).
    { intros i v Hi Ev. rewrite L in Hi. rewrite (observes_obs F K x ob) in Ev by assumption. specialize (OB i Hi). rewrite Ev in OB. apply OB. }
    rewrite E. cbn [pbind]. exists z. split.
    - reflexivity.
    - assert (forall z, agrees F K ob z <-> agrees (length parents) K (obs x) z) as EA.
      { intros z0. rewrite L. split; intros H i Hi; specialize (H i Hi); rewrite (observes_obs F K x ob) in * by assumption; exact H. }
      split; [now apply EA|]. intros z' Hz'. apply Mx. now apply EA.
  Qed.

  Lemma total_normalised c r vs y : normalised_tables F K parents (q c r) -> missing_of F (fun _ => None) vs ->
    fsum K vs (tree_prob parents (q c r)) y = 1.
  Proof.
    destruct parts as (Kp & L & pre & G & Et). intros N M. rewrite <- L in M.
    apply (total_one K parents (fun i a b => cpt i c r a b) root pre Kp T G); [|assumption].
    intros i Hi. rewrite L in Hi. destruct (Z.eqb_spec (nth i parents (-1)%Z) (-1)) as [E|E].
    - now apply N.
    - intros xp Hxp. now apply N.
  Qed.
End Leaf.

(** *** estimated tables *)
Lemma wcount_wsum d sel : wcount d sel = wsum d sel.
Proof.
  unfold wcount, wsum. induction d as [|[w x] d IH]; [reflexivity|]. cbn [map filter lsumR fst snd]. destruct (sel x); cbn; rewrite IH; ring.
Qed.
Lemma wsum_nonneg d sel : (forall wx, In wx d -> 0 <= fst wx) -> 0 <= wsum d sel.
Proof.
  intros H. unfold wsum. apply lsumR_map_nonneg. intros wx Hin. apply filter_In in Hin. now apply H.
Qed.
(** counting by the value of one feature *)
Lemma wsum_split K d i sel : (forall wx, In wx d -> (snd wx i < K)%nat) ->
  bsum K (fun k => wsum d (fun x => Nat.eqb (x i) k && sel x)) = wsum d sel.
Proof.
  intros H. rewrite (bsum_ext K _ (fun k => wcount d (fun x => Nat.eqb (x i) k && sel x))) by (intros; now rewrite wcount_wsum).
  rewrite <- wcount_wsum. unfold wcount. induction d as [|[w x] d IH]; [now apply bsum_zero|].
  cbn [map lsumR fst snd]. rewrite bsum_plus, IH by (intros; apply H; now right). f_equal.
  rewrite bsum_scal. f_equal. specialize (H (w, x) (or_introl eq_refl)). cbn in H. 
  rewrite (bsum_ext K _ (fun k => if Nat.eqb k (x i) then (if sel x then 1 else 0) else 0)).
  - rewrite (bsum_single K _ (x i)); [now rewrite Nat.eqb_refl|assumption|]. intros k _ Hk. destruct (Nat.eqb_spec k (x i)); [contradiction|reflexivity].
  - intros k _. rewrite Nat.eqb_sym. destruct (Nat.eqb k (x i)), (sel x); reflexivity.
Qed.

Definition eps12 : R := / 10 ^ 12.
Lemma eps12_pos : 0 < eps12.
Proof. apply Rinv_0_lt_compat, pow_lt. lra. Qed.

Section Mle.
  Variables (K : nat) (alpha : R) (parents : list Z) (d : list (R * (nat -> nat))) (i xp : nat).
  Hypothesis K_pos : (0 < K)%nat.
  Hypothesis Ha : eps12 <= alpha.
  Hypothesis Hw : forall wx, In wx d -> 0 <= fst wx.
  Hypothesis Hv : forall wx, In wx d -> (snd wx i < K)%nat.
  (** rows whose parent has the value [xp] (all rows for the root) *)
  Let cond (x : nat -> nat) : bool := Z.eqb (nth i parents (-1)%Z) (-1) || Nat.eqb (x (Z.to_nat (nth i parents (-1)%Z))) xp.
  Let n (k : nat) : R := alpha + wsum d (fun x => Nat.eqb (x i) k && cond x).
  Let N : R := INR K * alpha + wsum d cond.

  Lemma n_sum : bsum K n = N.
  Proof. unfold n, N. rewrite bsum_plus, bsum_const, wsum_split by assumption. ring. Qed.
  Lemma n_pos k : eps12 <= n k.
  Proof. unfold n. pose proof (wsum_nonneg d (fun x => Nat.eqb (x i) k && cond x) Hw). lra. Qed.
  Lemma N_pos : eps12 <= N.
  Proof.
    rewrite <- n_sum. eapply Rle_trans; [apply (n_pos 0)|]. apply (bsum_term_le K n 0 K_pos). intros j _.
    pose proof (n_pos j). pose proof eps12_pos. lra.
  Qed.
  Lemma mle_value k : pr (mle_cpt K alpha parents d i k xp) = Rmax (n k / N) eps12.
  Proof.
    unfold mle_cpt. cbv zeta. pose proof eps12_pos as Ep. rewrite pr_lfrom.
    2:{ unfold clamp12. fold eps12. pose proof (Rmax_r (/ 10 ^ 12) 0). apply Rle_trans with eps12; [lra|]. unfold eps12. apply Rmax_r. }
    unfold clamp12. fold eps12.
    assert (forall k, alpha + wcount d (fun x => Nat.eqb (x i) k && (Z.eqb (par parents i) (-1) || Nat.eqb (x (Z.to_nat (par parents i))) xp)) = n k) as E.
    { intros k'. rewrite wcount_wsum. reflexivity. }
    rewrite E. rewrite (bsum_ext K _ n) by (intros; apply E). rewrite n_sum.
    rewrite (Rmax_left N eps12) by apply N_pos. reflexivity.
  Qed.
  Lemma mle_bounds : 1 <= bsum K (fun k => pr (mle_cpt K alpha parents d i k xp)) <= 1 + INR K * eps12.
  Proof.
    pose proof N_pos as NP. pose proof eps12_pos as Ep.
    assert (bsum K (fun k => n k / N) = 1) as E1 by (rewrite bsum_div, n_sum; field; lra).
    split.
    - rewrite <- E1 at 1. apply bsum_le. intros k _. rewrite mle_value. apply Rmax_l.
    - rewrite <- (bsum_const K eps12), <- E1, <- bsum_plus. apply bsum_le. intros k _. rewrite mle_value.
      assert (0 <= n k / N). { apply Rmult_le_pos; [pose proof (n_pos k); lra|left; apply Rinv_0_lt_compat; lra]. }
      apply Rmax_lub; lra.
  Qed.
  Lemma mle_exact : (forall k, (k < K)%nat -> eps12 <= n k / N) ->
    (forall k, (k < K)%nat -> pr (mle_cpt K alpha parents d i k xp) = n k / N) /\
    bsum K (fun k => pr (mle_cpt K alpha parents d i k xp)) = 1 /\
    forall p, (forall k, (k < K)%nat -> 0 < p k) -> bsum K p = 1 ->
      bsum K (fun k => n k * ln (p k)) <= bsum K (fun k => n k * ln (pr (mle_cpt K alpha parents d i k xp))).
  Proof.
    intros H. pose proof N_pos as NP. pose proof eps12_pos as Ep.
    assert (forall k, (k < K)%nat -> pr (mle_cpt K alpha parents d i k xp) = n k / N) as EV.
    { intros k Hk. rewrite mle_value. apply Rmax_left. now apply H. }
    split; [assumption|]. split.
    - rewrite (bsum_ext K _ (fun k => n k / N)) by assumption. rewrite bsum_div, n_sum. field. lra.
    - intros p Hp Sp.
      pose proof (gibbs K n p K_pos ltac:(intros k _; pose proof (n_pos k); lra) Hp Sp) as GB.
      rewrite (bsum_ext K (fun k => n k * ln (pr _)) (fun k => n k * ln (n k / bsum K n))).
      2:{ intros k Hk. rewrite EV by assumption. now rewrite n_sum. }
      rewrite (bsum_ext K (fun k => n k * (ln (n k / bsum K n) - ln (p k))) (fun k => n k * ln (n k / bsum K n) + (-1) * (n k * ln (p k)))) in GB by (intros; ring).
      rewrite bsum_plus, bsum_scal in GB. lra.
  Qed.
End Mle.

(** *** learning the structure *)
Lemma mi_sym K alpha d i j : mi_matrix K alpha d i j = mi_matrix K alpha d j i.
Proof.
  unfold mi_matrix. cbv zeta. rewrite (Nat.eqb_sym i j). destruct (Nat.eqb_spec j i) as [->|N]; [reflexivity|].
  destruct (Nat.ltb_spec i j), (Nat.ltb_spec j i); try lia; reflexivity.
Qed.
Lemma fit_structure_spec query K alpha n d cols : (0 < length query)%nat -> resolve_columns query n = Ok cols ->
  exists parents, fit_structure query K alpha n d = Ok parents /\ length parents = length query /\ rooted_tree parents 0 /\
    spanning (length query) (tree_edges parents) /\
    forall E, spanning (length query) E ->
      weight (mi_matrix K alpha (map (fun wx => (fst wx, fun i => snd wx (nth i cols 0%nat))) d)) E <=
      weight (mi_matrix K alpha (map (fun wx => (fst wx, fun i => snd wx (nth i cols 0%nat))) d)) (tree_edges parents).
Proof.
  intros HF E. unfold fit_structure. rewrite E. cbn [bind].
  apply (prim_spec (length query) (mi_matrix K alpha (map (fun wx => (fst wx, pick_columns cols (snd wx))) d)) 0 (mi_sym _ _ _) HF).
Qed.
