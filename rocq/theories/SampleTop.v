(** Assembling the sampler's correctness; consequences at the API. *)
From Coq Require Import List Arith Bool Lia Lra Permutation Sorted.
From Verif Require Import Base ScopeModel ScopeProofs CircuitModel CircuitSpec CircuitBasics CircuitEval Integral CircuitMarg CircuitProps SampleModel SampleSpec SampleExp SampleProofs.
Import ListNotations.
Local Open Scope R_scope.

Lemma node_child n d2 sc cs c : In c cs -> node_of n c -> node_of n (MCat d2 sc cs).
Proof. intros. eapply node_cat; eauto. Qed.

Lemma leaves_child l d2 sc cs c : In c cs -> In l (leaves_of c) -> In l (leaves_of (MCat d2 sc cs)).
Proof. intros Hc Hl. rewrite leaves_cat. apply in_concat. exists (leaves_of c). split; [now apply in_map|assumption]. Qed.

Lemma cat_child_scope d2 sc cs c v : wf (MCat d2 sc cs) -> In c cs -> In v (query (scope_of c)) -> In v (query sc).
Proof.
  intros Wf Hc Hv. cbn in Wf. destruct Wf as (Hne & _ & Wf). destruct d2.
  - destruct Wf as (_ & Heq & Hsc). rewrite Hsc.
    assert (In (hd (MCat true sc []) cs) cs) as Hh by (destruct cs; [congruence|now left]).
    specialize (Heq c _ Hc Hh). apply scope_eqb_spec in Heq. now apply Heq.
  - destruct Wf as (_ & _ & _ & HU). apply HU. eauto.
Qed.

Lemma sample_spec D W ev e h I m : (forall v a, 0 <= h v a) ->
  wf m -> aligned m -> leaf_int D h I m -> cols_fine W m -> reps_fine m -> evok ev e m -> sspec D W ev e h I m.
Proof.
  intros hpos. induction m as [l|ch co rr lg IH|d2 sc cs IH|ch IH] using module_ind'; intros Wf A HI HC Rf Ev.
  - apply leaf_spec; auto.
  - pose proof Wf as Wf'. cbn in Wf'. destruct Wf' as [Wc _].
    apply sum_spec; auto. apply IH; auto; [apply (reps_fine_sum _ _ _ _ Wc Rf)|eapply evok_sum; eauto].
  - pose proof (wf_cat_children _ _ _ Wf) as Wc. pose proof (aligned_cat_children _ _ _ A) as Ac.
    pose proof Rf as Rf'. destruct Rf' as [(s & Hs) Hr].
    pose proof (ll_shape_cat _ _ _ _ Wc Hs) as Hch.
    assert (Forall (sspec D W ev e h I) cs) as Scs.
    { rewrite Forall_forall in IH, Wc, Ac |- *. intros c Hc. apply IH; auto.
      - intros l f c' r' Hl. apply HI. eapply leaves_child; eauto.
      - intros v Hv. apply HC. eapply cat_child_scope; eauto.
      - destruct (Hch c Hc) as [X1 X2]. split; [exact X1|]. rewrite X2. exact Hr.
      - destruct Ev as [[E H]|[E H]]; [left|right]; (split; [exact E|]).
        + intros n f c' Hn. apply H. eapply node_child; eauto.
        + intros v Hv. apply H. eapply cat_child_scope; eauto. }
    intros t (Lc & Lm & Hrp & Hci) HQ.
    pose proof (wf_wf1 _ Wf) as [_ _ _ HD _ _ Cp _].
    pose proof (reps_pos (MCat d2 sc cs) Wf (ex_intro _ s Hs) Hr) as Rp.
    assert (forall x, cat_ok d2 cs t = true -> sample_m false W ev (MCat d2 sc cs) t x = cat_sample W ev d2 t cs 0 x) as EQ.
    { intros x Hok. change (sample_m false W ev (MCat d2 sc cs) t x) with
       (let sh := out_shape (MCat d2 sc cs) in
        if validate [1%nat; features sh] (channels sh) (repetitions sh) t then
          match broadcast (features sh) t with
          | Err => Raise
          | Ok t1 => if cat_ok d2 cs t1 then cat_sample W ev d2 t1 cs 0 x else Raise end
        else Raise). cbv zeta.
      rewrite validate_full; auto; [| |congruence|rewrite Lc; exact Hci].
      - rewrite bcast_full by assumption. now rewrite Hok.
      - right. left. now rewrite Lc. }
    destruct d2.
    + assert (cat_ok true cs t = true) as Hok.
      { unfold cat_ok. destruct t as [ci mask r]. apply active_below_full. cbn [c_ci] in *. rewrite Lc.
        intros f Hf. rewrite <- out_shape_cat2 with (sc := sc). now apply Hci. }
      pose proof Wf as Wf'. cbn in Wf'. destruct Wf' as (Hne & _ & HF & _).
      eapply spec_ext; [intros x; symmetry; apply (EQ x Hok)| | | |
        apply (cat2_go_spec D W ev e h I t (features (out_shape (MCat true sc cs))) (nthq (MCat true sc cs)) Hrp Lc Lm HD cs 0 Wc Scs)].
      * intros v. unfold Cset. split; intros (f & Hf & Hm & Hin); exists f; repeat split; auto.
        -- now rewrite andb_true_r in Hm.
        -- now rewrite andb_true_r.
      * intros y. unfold Tset. apply bprod_ext. intros f Hf. cbn [Nat.leb]. now rewrite andb_true_r.
      * unfold Rset. apply bprod_ext. intros f Hf. cbn [Nat.leb]. rewrite andb_true_r, Nat.sub_0_r. reflexivity.
      * intros c Hc. rewrite Forall_forall in HF. split.
        -- rewrite (HF c Hc). destruct cs; [congruence|reflexivity].
        -- intros f Hf. cbn in A. destruct A as [_ A]. specialize (A eq_refl). rewrite Forall_forall in A.
           unfold nthq. rewrite (A c Hc). reflexivity.
      * intros f Hf. rewrite <- out_shape_cat2 with (sc := sc). now apply Hci.
      * intros f Hf Hm _. rewrite Nat.sub_0_r. apply (HQ f Hf Hm).
    + pose proof Wf as Wf'. cbn in Wf'. destruct Wf' as (Hne & _ & HF & _).
      assert (features (out_shape (MCat false sc cs)) = nsum (map (fun c => features (out_shape c)) cs)) as EF by apply out_shape_cat1.
      eapply spec_ext; [intros x; symmetry; apply (EQ x eq_refl)| | | |
        apply (cat1_go_spec D W ev e h I t Hrp (eq_trans Lm (eq_sym Lc)) cs 0 Wc Scs)].
      * intros v. unfold Cset. rewrite EF. reflexivity.
      * intros y. unfold Tset. rewrite EF. reflexivity.
      * unfold Rset. rewrite EF. reflexivity.
      * now rewrite Lc, EF.
      * intros c f Hc Hf. rewrite Forall_forall in HF. rewrite <- EF in Hf. specialize (Hci f Hf).
        rewrite (HF c Hc). cbn [plus]. destruct cs; [congruence|exact Hci].
      * rewrite <- EF. exact HD.
      * rewrite <- EF. exact HQ.
  - apply product_spec; auto. apply IH; auto.
    + destruct Rf as [(s & Hs) Hr]. split; [eapply ll_shape_product; eauto|exact Hr].
    + destruct Ev as [[E H]|[E H]]; [left|right]; (split; [exact E|]); auto.
      intros n f c' Hn. apply H. now constructor.
Qed.

(** *** mixed leaf scores and the iterated sum of density times test function *)
Section Mix.
Variables (D : nat -> domain) (e : row) (h : nat -> R -> R) (I : leaf -> nat -> nat -> nat -> R).
Hypothesis hpos : forall v a, 0 <= h v a.

Definition mix (x : row) (l : leaf) (f c r : nat) : lval :=
  match x (colv l f) with
  | Some a => if isnone (e (colv l f)) then lfrom (pr (l_lp l f c r a) * h (colv l f) a) else l_lp l f c r a
  | None => lfrom (I l f c r)
  end.

Lemma mix_e l f c r : mix e l f c r = sc_h e I l f c r.
Proof. unfold mix, sc_h. destruct (e (colv l f)); reflexivity. Qed.

Lemma mix_full m : wf m -> aligned m -> forall f c r, pos m f c r -> forall y, (forall v, In v (nthq m f) -> y v <> None) ->
  pev (mix y) m f c r = prob m y f c r * tst e h (nthq m f) y.
Proof.
  intros Wf A f c r P. revert f c r P.
  apply (pos_induction (fun m f c r => forall y, (forall v, In v (nthq m f) -> y v <> None) ->
    pev (mix y) m f c r = prob m y f c r * tst e h (nthq m f) y)); auto.
  - intros l f c r Hok Hf Hc Hr y Hy. unfold prob, loglik, pev. cbn [evalm]. unfold leaf_score, mix, colv.
    rewrite nthq_leaf in * by assumption. unfold tst. cbn [lprod].
    specialize (Hy _ (or_introl eq_refl)).
    destruct (y (nth f (query (l_scope l)) 0%nat)) as [a|]; [|congruence]. cbn [cell].
    destruct (isnone _); [|ring]. rewrite pr_lfrom; [ring|]. apply Rmult_le_pos; [apply pr_nonneg|apply hpos].
  - intros ch co rr lg f c r W0 A0 HP IH y Hy. cbn in W0. destruct W0 as [W0 _].
    pose proof (wf_cpos ch (wf_wf1 ch W0)) as Cp. rewrite prob_pev, !pev_sum by assumption.
    change (nthq (MSum ch co rr lg) f) with (nthq ch f) in *.
    rewrite <- bsum_scal_r. apply bsum_ext. intros i Hi. destruct (IH i Hi) as [_ IHi]. rewrite IHi by assumption.
    rewrite prob_pev. ring.
  - intros sc pre ch post g c r _ _ HP W0 A0 _ EN IH y Hy. rewrite prob_pev, !pev_cat1 by apply HP.
    rewrite EN in *. apply IH. exact Hy.
  - intros sc pre ch post f k r _ _ HP W0 A0 _ EN IH y Hy. rewrite prob_pev, !pev_cat2 by apply HP.
    rewrite EN in *. apply IH. exact Hy.
  - intros ch c r W0 A0 HP IH y Hy. rewrite prob_pev, !pev_product. unfold tst. rewrite lprod_pjoin by assumption.
    rewrite <- bprod_mult. apply bprod_ext. intros f Hf. destruct (IH f Hf) as [_ IHf]. apply IHf.
    intros v Hv. apply Hy. apply nthq_product; eauto.
Qed.

Lemma mix_sums m f c r vs : wf m -> aligned m -> leaf_int D h I m -> pos m f c r -> missing e (nthq m f) vs ->
  sums_over D vs (fun y => prob m y f c r * tests h vs y) e (pev (sc_h e I) m f c r).
Proof.
  intros Wf A HI P [ND Hvs].
  assert (pev (sc_h e I) m f c r = pev (mix (set_nan vs e)) m f c r) as ->.
  { unfold pev. do 2 f_equal. apply functional_extensionality. intros l.
    repeat (apply functional_extensionality; intros ?). rewrite <- mix_e. f_equal.
    apply functional_extensionality. intros v. destruct (in_dec Nat.eq_dec v vs) as [Hin|Hn].
    - rewrite set_nan_In by assumption. now apply Hvs.
    - now rewrite set_nan_notIn. }
  eapply sums_over_ext with (g := fun y => pev (mix y) m f c r); [exact ND| |].
  - intros y Y1 Y2. cbn beta.
    assert (forall v, In v (nthq m f) -> y v <> None) as Hy.
    { intros v Hv. destruct (in_dec Nat.eq_dec v vs) as [Hin|Hn]; [auto|]. rewrite Y2 by assumption.
      intros C. apply Hn. apply Hvs. auto. }
    rewrite mix_full by assumption. f_equal. unfold tst, tests.
    rewrite <- lprod_filter with (b := fun v => isnone (e v)) (f := fun v => cell (h v) (y v)). apply lprod_perm.
    apply NoDup_Permutation.
    + apply NoDup_filter. apply ssorted_NoDup. apply (wf_sorted m (wf_wf1 m Wf)). apply P.
    + exact ND.
    + intros v. rewrite filter_In, Hvs. destruct (e v); cbn; intuition congruence.
  - apply (sums_over_nan D (fun y => pev (mix y) m f c r) (fun v => In v vs)); [|exact ND|auto].
    intros v x Hv. apply Hvs in Hv. destruct Hv as [Hv Hev].
    apply (lin1 D m v (fun a => mix (upd x v (Some a))) (mix (upd x v None))); auto.
    + intros l g c' r' a Hn. unfold mix. rewrite !upd_other by assumption. reflexivity.
    + intros l g c' r' Hl Hlr Ecol. unfold mix. rewrite Ecol, upd_same, Hev. cbn [isnone].
      specialize (HI l g c' r' Hl Hlr). rewrite Ecol in HI.
      rewrite pr_lfrom; [|eapply sums_nonneg; [|exact HI]; intros a; apply Rmult_le_pos; [apply pr_nonneg|apply hpos]].
      eapply sums_ext; [|exact HI]. intros a. cbn beta. rewrite upd_same. cbn [isnone].
      rewrite pr_lfrom; [reflexivity|]. apply Rmult_le_pos; [apply pr_nonneg|apply hpos].
Qed.
End Mix.
