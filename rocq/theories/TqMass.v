(** Total mass of the recursion (proofs). *)
From Coq Require Import List Arith Bool Reals ZArith Lia Lra Sorted.
From Verif Require Import Base ScopeModel ScopeProofs RegionModel RegionSpec RegionProofs CircuitModel Integral LayerModel PicModel PicSpec PicVisit PicMat PicShare TqModel TqSpec TqParam TqLevel TqVal TqStep TqBuild TqTop.
Import ListNotations.

Lemma sums_bprod d n c0 (F : nat -> R -> R) (G : nat -> R) : (c0 < n)%nat -> (forall c a, (c < n)%nat -> c <> c0 -> F c a = G c) -> sums d (F c0) (G c0) ->
  sums d (fun a => bprod n (fun c => F c a)) (bprod n G).
Proof.
  intros Hc HF HS. assert (K0 : forall m a, (m <= c0)%nat -> bprod m (fun c => F c a) = bprod m G) by (intros m a Hm; apply bprod_ext; intros c Hc'; apply HF; lia).
  assert (K1 : forall m, (c0 < m <= n)%nat -> sums d (fun a => bprod m (fun c => F c a)) (bprod m G)); [|apply K1; lia].
  induction m as [|m IH]; intros Hm; [lia|]. cbn [bprod]. destruct (Nat.eq_dec m c0) as [->|NE].
  - apply sums_ext with (f := fun a => (bprod c0 G * F c0 a)%R); [intros a; now rewrite K0|]. now apply sums_scal.
  - replace (bprod m G * G m)%R with (G m * bprod m G)%R by ring. apply sums_ext with (f := fun a => (G m * bprod m (fun c => F c a))%R); [intros a; rewrite HF by lia; ring|]. apply sums_scal, IH. lia.
Qed.

Lemma sums_over_obs D vs : forall seen (g g' : row -> R) x u, (forall v, In v seen -> x v <> None) ->
  (forall y, (forall v, In v (seen ++ vs) -> y v <> None) -> g y = g' y) -> sums_over D vs g' x u -> sums_over D vs g x u.
Proof.
  induction vs as [|v vs IH]; intros seen g g' x u HX HE HS; cbn [sums_over] in *.
  - rewrite HE; [exact HS|]. rewrite app_nil_r. exact HX.
  - destruct HS as (h & H1 & H2). exists h. split; [|exact H2]. intros a. apply (IH (seen ++ [v]) g g'); [| |apply H1].
    + intros w Hw. unfold CircuitModel.upd. destruct (Nat.eqb_spec w v); [discriminate|]. apply in_app_or in Hw. destruct Hw as [Hw|[->|[]]]; [now apply HX|contradiction].
    + intros y Hy. apply HE. intros w Hw. apply Hy. rewrite <- app_assoc. exact Hw.
Qed.

Section Mass.
Variable root : region.
Variable cls : layer_cls.
Variable K : nat.
Variable W : weights.
Variable D : nat -> domain.
(** density of unit [k] of the leaf of a variable *)
Variable f : nat -> nat -> R -> R.
Hypothesis SO : forall r, reach root r -> sorted_scope (r_scope r).
Hypothesis RG : rg_ok root.
Hypothesis UV : univariate root.
Hypothesis K1 : 1 <= K.
Hypothesis Wtk : forall h s o, bsum K (fun i => bsum K (fun j => w_tk W h s i j o)) = 1%R.
Hypothesis Wcp : forall h s c o, bsum K (fun i => w_cp W h s c i o) = 1%R.
Hypothesis Wmx : forall m s n k, 1 <= n -> bsum n (fun j => w_mix W m s n j k) = 1%R.
Hypothesis FD : forall v k, In v (query (r_scope root)) -> k < K -> sums (D v) (f v k) 1%R.

Definition leafm (y : row) (s : scope) (k : nat) : R := let v := hd 0 (query s) in match y v with Some a => f v k a | None => 1%R end.
Notation tv y := (tval root cls K W (leafm y)).
Notation pv y := (pvals root cls K W (leafm y)).

Lemma tucker_length r p : reach root r -> In p (r_children r) -> tucker_at root cls (rdepth r) = true -> length p = 2.
Proof.
  intros Hr Hp HT. assert (HB : all_binary root (rdepth r) = true) by (destruct cls; [exact HT|exact HT|discriminate]). destruct (level_complete root SO r Hr) as (d & Hd & E). unfold all_binary in HB. rewrite forallb_forall in HB. specialize (HB d Hd). rewrite forallb_forall in HB.
  apply same_equal in E. inversion E as [s u ps qs A B C]; subst. cbn [r_children] in *. destruct (F2_in _ _ _ _ C Hp) as (q & Hq & HF2). rewrite (F2_length _ _ _ HF2). apply Nat.eqb_eq. now apply HB.
Qed.
Lemma nth_tv y p c d : nth_error p c = Some d -> nth c (map (tv y) p) (fun _ => 0%R) = tv y d.
Proof. intros E. apply nth_error_nth. rewrite nth_error_map, E. reflexivity. Qed.
Lemma leaf_var r : reach root r -> r_children r = [] -> query (r_scope r) = [hd 0 (query (r_scope r))].
Proof. intros Hr Hc. pose proof (UV r Hr Hc) as HL. destruct (query (r_scope r)) as [|v [|w l]]; try discriminate. reflexivity. Qed.
Lemma part_local h sl p y y' o : (forall d, In d p -> forall k, tv y d k = tv y' d k) -> part_value root cls K W h sl (map (tv y) p) o = part_value root cls K W h sl (map (tv y') p) o.
Proof.
  intros H. apply part_value_ext. induction p as [|d p IH]; cbn [map]; constructor; [intros k _; apply H; now left|]. apply IH. intros e He. apply H. now right.
Qed.
Lemma tv_local v c r : reach root r -> ~ In v (query (r_scope r)) -> forall y k, tv (CircuitModel.upd y v c) r k = tv y r k.
Proof.
  induction r as [r IH] using region_ind_size. intros Hr NV y k. destruct (r_children r) as [|p0 ps] eqn:EC.
  - rewrite !(tval_leaf root cls K W _ r EC). unfold leafm. cbv zeta. rewrite upd_other; [reflexivity|]. intros E. apply NV. rewrite (leaf_var r Hr EC), <- E. now left.
  - assert (NE : r_children r <> []) by (rewrite EC; discriminate). rewrite !(tval_node root cls K W _ r NE), !region_value_spec by exact NE.
    assert (HJ : forall j k, j < length (r_children r) -> nth j (pv (CircuitModel.upd y v c) r) (fun _ => 0%R) k = nth j (pv y r) (fun _ => 0%R) k).
    { intros j k' Hj. destruct (nth_error (r_children r) j) as [p|] eqn:Ep; [|apply nth_error_None in Ep; lia]. rewrite !(pvals_nth root cls K W _ r j p Ep). apply part_local. intros d Hd k0.
      assert (Hp : In p (r_children r)) by (eapply nth_error_In; exact Ep). assert (IC : is_child d r) by (exists p; now split). apply IH; [exact IC|econstructor; eassumption|]. intros Hv. apply NV. destruct (RG r Hr) as (_ & _ & _ & HP). destruct (HP p Hp) as (_ & _ & HC). apply HC. now exists d. }
    destruct (several r); [apply bsum_ext; intros j Hj; now rewrite HJ|]. apply HJ. rewrite EC. cbn. lia.
Qed.

Lemma FOP_nth {A} (Q : A -> A -> Prop) l : ForallOrdPairs Q l -> forall i j a b, i < j -> nth_error l i = Some a -> nth_error l j = Some b -> Q a b.
Proof.
  induction 1 as [|x l F H IH]; intros i j a b Hij Ea Eb; [destruct i; discriminate|]. destruct j as [|j]; [lia|]. cbn in Eb. destruct i as [|i]; cbn in Ea; [injection Ea as <-; rewrite Forall_forall in F; apply F; eapply nth_error_In; exact Eb|]. apply (IH i j); [lia|assumption|assumption].
Qed.
Lemma only_child r p v : reach root r -> In p (r_children r) -> In v (query (r_scope r)) -> exists c0 d0, nth_error p c0 = Some d0 /\ In v (query (r_scope d0)) /\
  forall c d, nth_error p c = Some d -> c <> c0 -> ~ In v (query (r_scope d)).
Proof.
  intros Hr Hp Hv. destruct (RG r Hr) as (_ & _ & _ & HP). destruct (HP p Hp) as (_ & HD & HC). apply HC in Hv. destruct Hv as (d0 & Hd & Hv). apply In_nth_error in Hd. destruct Hd as (c0 & E0). exists c0, d0. split; [exact E0|]. split; [exact Hv|].
  intros c d E NE Hvd. destruct (Nat.lt_ge_cases c c0) as [H|H]; [exact (FOP_nth _ p HD c c0 d d0 H E E0 v Hvd Hv)|]. assert (H' : c0 < c) by lia. exact (FOP_nth _ p HD c0 c d0 d H' E0 E v Hv Hvd).
Qed.

Lemma tv_sums v r : reach root r -> In v (query (r_scope r)) -> forall y k, (r_children r <> [] \/ k < K) ->
  sums (D v) (fun a => tv (CircuitModel.upd y v (Some a)) r k) (tv (CircuitModel.upd y v None) r k).
Proof.
  induction r as [r IH] using region_ind_size. intros Hr Hv y k Hk. destruct (r_children r) as [|p0 ps] eqn:EC.
  - assert (EV : hd 0 (query (r_scope r)) = v) by (rewrite (leaf_var r Hr EC) in Hv; destruct Hv as [E|[]]; exact E). destruct Hk as [Hk|Hk]; [contradiction|].
    rewrite (tval_leaf root cls K W _ r EC). unfold leafm at 2. cbv zeta. rewrite EV, upd_same. apply sums_ext with (f := f v k); [|apply FD; [|exact Hk]].
    + intros a. rewrite (tval_leaf root cls K W _ r EC). unfold leafm. cbv zeta. now rewrite EV, upd_same.
    + exact (reach_query root RG r Hr v Hv).
  - assert (NE : r_children r <> []) by (rewrite EC; discriminate). rewrite (tval_node root cls K W _ r NE), region_value_spec by exact NE.
    assert (HJ : forall j k, j < length (r_children r) -> sums (D v) (fun a => nth j (pv (CircuitModel.upd y v (Some a)) r) (fun _ => 0%R) k) (nth j (pv (CircuitModel.upd y v None) r) (fun _ => 0%R) k)).
    { intros j k' Hj. destruct (nth_error (r_children r) j) as [p|] eqn:Ep; [|apply nth_error_None in Ep; lia]. assert (Hp : In p (r_children r)) by (eapply nth_error_In; exact Ep).
      rewrite (pvals_nth root cls K W _ r j p Ep). eapply sums_ext; [intros a; symmetry; rewrite (pvals_nth root cls K W _ r j p Ep); reflexivity|].
      destruct (only_child r p v Hr Hp Hv) as (c0 & d0 & E0 & Hd0 & OC).
      assert (RC : forall c d, nth_error p c = Some d -> is_child d r /\ reach root d) by (intros c d E; assert (IC : is_child d r) by (exists p; split; [exact Hp|eapply nth_error_In; exact E]); split; [exact IC|econstructor; eassumption]).
      destruct (RC c0 d0 E0) as [IC0 RC0].
      assert (HS : forall k, k < K -> sums (D v) (fun a => tv (CircuitModel.upd y v (Some a)) d0 k) (tv (CircuitModel.upd y v None) d0 k)) by (intros k0 Hk0; apply IH; auto).
      assert (HL : forall c d b b' k, nth_error p c = Some d -> c <> c0 -> tv (CircuitModel.upd y v b) d k = tv (CircuitModel.upd y v b') d k) by (intros c d b b' k0 E NC; destruct (RC c d E) as [_ RCd]; rewrite !tv_local; try assumption; try reflexivity; now apply (OC c)).
      unfold part_value. destruct (tucker_at root cls (rdepth r)) eqn:TK.
      - pose proof (tucker_length r p Hr Hp TK) as L2. destruct p as [|d1 [|d2 [|d3 p]]]; try discriminate. cbn [map nth]. 
        apply sums_bsum with (f0 := fun _ => 0%R) (u0 := 0%R); [|intros i Hi].
        { pose proof (sums_scal (D v) 0 _ _ (HS 0 K1)) as Z. rewrite Rmult_0_l in Z. eapply sums_ext; [|exact Z]. intros a. cbv beta. ring. }
        apply sums_bsum with (f0 := fun _ => 0%R) (u0 := 0%R); [|intros j' Hj'].
        { pose proof (sums_scal (D v) 0 _ _ (HS 0 K1)) as Z. rewrite Rmult_0_l in Z. eapply sums_ext; [|exact Z]. intros a. cbv beta. ring. }
        apply sums_scal. destruct c0 as [|[|c0]]; cbn in E0.
        + injection E0 as <-. set (c := tv (CircuitModel.upd y v None) d2 j'). rewrite Rmult_comm. apply sums_ext with (f := fun a => (c * tv (CircuitModel.upd y v (Some a)) d1 i)%R).
          * intros a. rewrite (HL 1 d2 (Some a) None j' eq_refl ltac:(lia)). unfold c. ring.
          * apply sums_scal. now apply HS.
        + injection E0 as <-. set (c := tv (CircuitModel.upd y v None) d1 i). apply sums_ext with (f := fun a => (c * tv (CircuitModel.upd y v (Some a)) d2 j')%R).
          * intros a. rewrite (HL 0 d1 (Some a) None i eq_refl ltac:(lia)). reflexivity.
          * apply sums_scal. now apply HS.
        + destruct c0; discriminate.
      - rewrite map_length. eapply sums_ext; [intros a; rewrite map_length; reflexivity|].
        apply (sums_bprod (D v) (length p) c0 (fun c a => bsum K (fun i => w_cp W (rdepth r) (part_slot root r + j) c i k' * nth c (map (tv (CircuitModel.upd y v (Some a))) p) (fun _ => 0) i)%R)).
        + apply nth_error_Some. congruence.
        + intros c a Hc NC. destruct (nth_error p c) as [d|] eqn:Ed; [|apply nth_error_None in Ed; lia]. rewrite !(nth_tv _ p c d Ed). apply bsum_ext. intros i _. now rewrite (HL c d (Some a) None i Ed NC).
        + rewrite (nth_tv _ p c0 d0 E0). eapply sums_ext; [intros a; rewrite (nth_tv _ p c0 d0 E0); reflexivity|].
          apply sums_bsum with (f0 := fun _ => 0%R) (u0 := 0%R); [|intros i Hi; apply sums_scal; now apply HS].
          pose proof (sums_scal (D v) 0 _ _ (HS 0 K1)) as Z. rewrite Rmult_0_l in Z. eapply sums_ext; [|exact Z]. intros a. cbv beta. ring. }
    destruct (several r) eqn:SV.
    + eapply sums_ext; [intros a; symmetry; rewrite (tval_node root cls K W _ r NE), region_value_spec, SV by exact NE; reflexivity|].
      apply sums_bsum with (f0 := fun a => nth 0 (pv (CircuitModel.upd y v (Some a)) r) (fun _ => 0%R) k) (u0 := nth 0 (pv (CircuitModel.upd y v None) r) (fun _ => 0%R) k); [apply HJ; rewrite EC; cbn; lia|].
      intros j Hj. apply sums_scal. now apply HJ.
    + eapply sums_ext; [intros a; symmetry; rewrite (tval_node root cls K W _ r NE), region_value_spec, SV by exact NE; reflexivity|]. apply HJ. rewrite EC. cbn. lia.
Qed.

Lemma tv_none r : reach root r -> forall y k, (forall v, In v (query (r_scope r)) -> y v = None) -> tv y r k = 1%R.
Proof.
  induction r as [r IH] using region_ind_size. intros Hr y k HY. destruct (r_children r) as [|p0 ps] eqn:EC.
  - rewrite (tval_leaf root cls K W _ r EC). unfold leafm. cbv zeta. rewrite HY; [reflexivity|]. rewrite (leaf_var r Hr EC). now left.
  - assert (NE : r_children r <> []) by (rewrite EC; discriminate). rewrite (tval_node root cls K W _ r NE), region_value_spec by exact NE.
    assert (HJ : forall j k, j < length (r_children r) -> nth j (pv y r) (fun _ => 0%R) k = 1%R).
    { intros j k' Hj. destruct (nth_error (r_children r) j) as [p|] eqn:Ep; [|apply nth_error_None in Ep; lia]. assert (Hp : In p (r_children r)) by (eapply nth_error_In; exact Ep). rewrite (pvals_nth root cls K W _ r j p Ep).
      destruct (RG r Hr) as (_ & _ & _ & HP). destruct (HP p Hp) as (_ & _ & HC).
      assert (HN : forall c i, c < length p -> nth c (map (tv y) p) (fun _ => 0%R) i = 1%R).
      { intros c i Hc. destruct (nth_error p c) as [d|] eqn:Ed; [|apply nth_error_None in Ed; lia]. rewrite (nth_tv y p c d Ed). assert (Hd : In d p) by (eapply nth_error_In; exact Ed). assert (IC : is_child d r) by (exists p; now split).
        apply IH; [exact IC|econstructor; eassumption|]. intros v Hv. apply HY, HC. now exists d. }
      unfold part_value. destruct (tucker_at root cls (rdepth r)) eqn:TK.
      - pose proof (tucker_length r p Hr Hp TK) as L2. rewrite <- (Wtk (rdepth r) (part_slot root r + j) k'). apply bsum_ext. intros a _. apply bsum_ext. intros b _. rewrite !HN by lia. ring.
      - rewrite map_length. rewrite (bprod_ext _ _ (fun _ => 1%R)); [clear; induction (length p); cbn [bprod]; [reflexivity|lra]|]. intros c Hc. rewrite <- (Wcp (rdepth r) (part_slot root r + j) c k'). apply bsum_ext. intros i _. rewrite HN by exact Hc. ring. }
    assert (L1 : 1 <= length (r_children r)) by (rewrite EC; cbn; lia).
    destruct (several r); [|apply HJ; lia]. rewrite <- (Wmx (mix_height root (rdepth r)) (mix_slot root r) (length (r_children r)) k L1). apply bsum_ext. intros j Hj. rewrite HJ by exact Hj. ring.
Qed.

Theorem tv_total x : r_children root <> [] -> sums_over D (query (r_scope root)) (fun y => tv y root 0) x 1%R.
Proof.
  intros NE. assert (ND : NoDup (query (r_scope root))) by (destruct (RG root (reach_root root)) as ((H & _) & _); exact H).
  pose proof (sums_over_nan D (fun y => tv y root 0) (fun v => In v (query (r_scope root))) (fun v y Hv => tv_sums v root (reach_root root) Hv y 0 (or_introl NE)) (query (r_scope root)) x ND (fun v H => H)) as H.
  cbv beta in H. rewrite (tv_none root (reach_root root)) in H; [exact H|]. intros v Hv. now apply set_nan_In.
Qed.
End Mass.
