(** Characterisation of log_likelihood on well-formed modules: recursion
    equations in the probability domain, shapes, locality. *)
From Coq Require Import List Arith Bool Lia Lra.
From Verif Require Import Base ScopeModel ScopeProofs CircuitModel CircuitBasics.
Import ListNotations.
Local Open Scope R_scope.

Lemma softmax_pos n g i : (0 < n)%nat -> 0 < softmax n g i.
Proof.
  intros Hn. unfold softmax. apply Rdiv_lt_0_compat; [apply exp_pos|].
  apply bsum_pos; [assumption|]. intros; apply exp_pos.
Qed.

Lemma softmax_sum n g : (0 < n)%nat -> bsum n (softmax n g) = 1.
Proof.
  intros Hn. unfold softmax. rewrite bsum_div.
  assert (0 < bsum n (fun j => exp (g j))) by (apply bsum_pos; [assumption|intros; apply exp_pos]).
  field. lra.
Qed.

Lemma exp_log_softmax n g i : (0 < n)%nat -> exp (log_softmax n g i) = softmax n g i.
Proof.
  intros Hn. unfold log_softmax, softmax, Rminus, Rdiv. rewrite exp_plus, exp_Ropp, exp_ln; [reflexivity|].
  apply bsum_pos; [assumption|intros; apply exp_pos].
Qed.

Definition pev s m f c r : R := pr (evalm s m f c r).

Lemma pev_nonneg s m f c r : 0 <= pev s m f c r.
Proof. apply pr_nonneg. Qed.

Lemma pev_sum s ch co rr lg f c r : (0 < channels (out_shape ch))%nat ->
  pev s (MSum ch co rr lg) f c r =
  bsum (channels (out_shape ch)) (fun ci =>
    softmax (channels (out_shape ch)) (fun i => lg f i c (bidx rr r)) ci
    * pev s ch f ci (bidx (ll_reps ch) r)).
Proof.
  intros Hn. unfold pev. cbn [evalm]. rewrite pr_lse. apply bsum_ext. intros ci Hci.
  rewrite pr_ladd. cbn [pr]. rewrite exp_log_softmax by assumption. ring.
Qed.

Lemma pev_product s ch f c r :
  pev s (MProduct ch) f c r = bprod (features (out_shape ch)) (fun f' => pev s ch f' c r).
Proof. unfold pev. cbn [evalm]. apply pr_ladds. Qed.

Lemma pev_cat1 s sc pre ch post g c r : (g < features (out_shape ch))%nat ->
  pev s (MCat false sc (pre ++ ch :: post)) (nsum (map (fun c => features (out_shape c)) pre) + g) c r = pev s ch g c r.
Proof. intros H. unfold pev. cbn [evalm]. now rewrite catpick_locate1. Qed.

Lemma pev_cat2 s sc pre ch post k f r : (k < channels (out_shape ch))%nat ->
  pev s (MCat true sc (pre ++ ch :: post)) f (nsum (map (fun c => channels (out_shape c)) pre) + k) r = pev s ch f k r.
Proof. intros H. unfold pev. cbn [evalm]. now rewrite catpick_locate2. Qed.

(** shapes *)
Lemma bcast_same a : bcast a a = Ok a.
Proof. unfold bcast. now rewrite Nat.eqb_refl. Qed.

Definition cat_go (d2 : bool) := fix go (l : list module) : result shape :=
         match l with
         | [] => Err
         | c :: rest =>
             bind (ll_shape c) (fun s =>
               match rest with
               | [] => Ok s
               | _ => bind (go rest) (fun t =>
                   if d2
                   then if (Nat.eqb (features s) (features t) && Nat.eqb (repetitions s) (repetitions t))%bool
                        then Ok (mkShape (features s) (channels s + channels t) (repetitions s)) else Err
                   else if (Nat.eqb (channels s) (channels t) && Nat.eqb (repetitions s) (repetitions t))%bool
                        then Ok (mkShape (features s + features t) (channels s) (repetitions s)) else Err)
               end)
         end.

Lemma cat_go_ok d2 cs s : cat_go d2 cs = Ok s ->
  exists c0 rest, cs = c0 :: rest /\
  Forall (fun c => exists t, ll_shape c = Ok t /\ repetitions t = repetitions s /\
     (if d2 then features t = features s else channels t = channels s)) cs /\
  (if d2 then forall h, (forall c t, In c cs -> ll_shape c = Ok t -> channels t = h c) -> channels s = nsum (map h cs)
   else forall h, (forall c t, In c cs -> ll_shape c = Ok t -> features t = h c) -> features s = nsum (map h cs)).
Proof.
  revert s. induction cs as [|c cs IH]; intros s H; [discriminate|].
  exists c, cs. split; [reflexivity|].
  cbn [cat_go] in H. fold (cat_go d2) in H.
  destruct (ll_shape c) as [t|] eqn:Ec; cbn [bind] in H; [|discriminate].
  destruct cs as [|c' cs].
  - injection H as ->. split.
    + constructor; [|constructor]. exists s. repeat split; auto. now destruct d2.
    + destruct d2; intros h Hh; cbn; rewrite (Hh c s); auto; now left.
  - destruct (cat_go d2 (c' :: cs)) as [u|] eqn:Eu; cbn [bind] in H; [|discriminate].
    destruct (IH u eq_refl) as (c0 & rest & E & HF & HS). clear IH E.
    destruct d2.
    + destruct (Nat.eqb_spec (features t) (features u)); [|discriminate].
      destruct (Nat.eqb_spec (repetitions t) (repetitions u)); [|discriminate].
      cbn in H. injection H as <-. cbn [features channels repetitions]. split.
      * constructor; [exists t; auto|]. eapply Forall_impl; [|exact HF].
        intros a (ta & Ha & Hb & Hc). exists ta. repeat split; auto; congruence.
      * intros h Hh. cbn [map nsum]. rewrite (Hh c t) by (auto; now left).
        f_equal. apply HS. intros; apply Hh; auto. now right.
    + destruct (Nat.eqb_spec (channels t) (channels u)); [|discriminate].
      destruct (Nat.eqb_spec (repetitions t) (repetitions u)); [|discriminate].
      cbn in H. injection H as <-. cbn [features channels repetitions]. split.
      * constructor; [exists t; auto|]. eapply Forall_impl; [|exact HF].
        intros a (ta & Ha & Hb & Hc). exists ta. repeat split; auto; congruence.
      * intros h Hh. cbn [map nsum]. rewrite (Hh c t) by (auto; now left).
        f_equal. apply HS. intros; apply Hh; auto. now right.
Qed.

(** features and channels of the returned tensor are the declared ones; its
    repetitions are [ll_reps] *)
Lemma ll_shape_spec m s : wf m -> ll_shape m = Ok s ->
  features s = features (out_shape m) /\ channels s = channels (out_shape m) /\ repetitions s = ll_reps m.
Proof.
  revert s. induction m as [l|c co rr lg IH|d2 sc cs IH|c IH] using module_ind'; intros s W H.
  - cbn in H. injection H as <-. cbn. auto.
  - cbn in W. destruct W as [W Hco]. cbn in H.
    destruct (ll_shape c) as [t|]; cbn in H; [|discriminate].
    destruct (IH t W eq_refl) as (E1 & E2 & E3). rewrite E1, E2, !bcast_same in H. cbn in H.
    rewrite E3 in H. unfold bcast in H. cbn.
    destruct (Nat.eqb_spec (ll_reps c) rr) as [E|E].
    + cbn in H. injection H as <-. cbn. repeat split; auto. rewrite E. now destruct (Nat.eqb_spec rr 1).
    + destruct (Nat.eqb_spec (ll_reps c) 1) as [E'|E'].
      * cbn in H. injection H as <-. auto.
      * destruct (Nat.eqb rr 1); [|discriminate]. cbn in H. injection H as <-. auto.
  - pose proof (wf_cat_children _ _ _ W) as Wc.
    change (cat_go d2 cs = Ok s) in H. apply cat_go_ok in H.
    destruct H as (c0 & rest & E & HF & HS).
    rewrite Forall_forall in IH, Wc, HF.
    assert (In c0 cs) as Hc0 by (subst; now left).
    destruct (HF c0 Hc0) as (t0 & L0 & R0 & X0).
    destruct (IH c0 Hc0 t0 (Wc c0 Hc0) L0) as (A1 & A2 & A3).
    destruct d2.
    + split; [|split].
      * subst cs. cbn. congruence.
      * rewrite out_shape_cat2. apply HS. intros c t Hc Ht. apply (IH c Hc t (Wc c Hc) Ht).
      * subst cs. cbn. congruence.
    + split; [|split].
      * rewrite out_shape_cat1. apply HS. intros c t Hc Ht. apply (IH c Hc t (Wc c Hc) Ht).
      * subst cs. cbn. congruence.
      * subst cs. cbn. congruence.
  - cbn in W, H. destruct (ll_shape c) as [t|]; cbn in H; [|discriminate].
    injection H as <-. destruct (IH t W eq_refl) as (E1 & E2 & E3). cbn. auto.
Qed.

Lemma ll_shape_sum c co rr lg s : ll_shape (MSum c co rr lg) = Ok s -> exists t, ll_shape c = Ok t.
Proof. cbn. destruct (ll_shape c) as [t|]; [eauto|discriminate]. Qed.

Lemma ll_shape_product c s : ll_shape (MProduct c) = Ok s -> exists t, ll_shape c = Ok t.
Proof. cbn. destruct (ll_shape c) as [t|]; [eauto|discriminate]. Qed.

Lemma ll_shape_cat d2 sc cs s : Forall wf cs -> ll_shape (MCat d2 sc cs) = Ok s ->
  forall c, In c cs -> (exists t, ll_shape c = Ok t) /\ ll_reps c = ll_reps (MCat d2 sc cs).
Proof.
  intros W H. change (cat_go d2 cs = Ok s) in H. apply cat_go_ok in H.
  destruct H as (c0 & rest & E & HF & _). rewrite Forall_forall in W, HF.
  assert (forall c, In c cs -> (exists t, ll_shape c = Ok t) /\ ll_reps c = repetitions s) as A.
  { intros c Hc. destruct (HF c Hc) as (t & Ht & Rt & _). split; [eauto|].
    destruct (ll_shape_spec c t (W c Hc) Ht) as (_ & _ & <-). exact Rt. }
  intros c Hc. destruct (A c Hc) as [A1 A2]. split; [assumption|]. rewrite A2.
  assert (In c0 cs) as Hc0 by (subst; now left). destruct (A c0 Hc0) as [_ B].
  subst cs. cbn. congruence.
Qed.

(** Positions at which the returned tensor is defined *)
Definition in_shape (s : shape) (f c r : nat) : Prop :=
  (f < features s)%nat /\ (c < channels s)%nat /\ (r < repetitions s)%nat.

(** Induction principle over the defined positions: one clause per module kind.
    Everything below about log_likelihood values is an instance. *)
Definition pos (m : module) f c r := (exists s, ll_shape m = Ok s) /\
  (f < features (out_shape m))%nat /\ (c < channels (out_shape m))%nat /\ (r < ll_reps m)%nat.

Lemma in_shape_pos m s f c r : wf m -> ll_shape m = Ok s -> in_shape s f c r -> pos m f c r.
Proof.
  intros W H (A & B & C). destruct (ll_shape_spec m s W H) as (E1 & E2 & E3).
  split; [eauto|]. rewrite <- E1, <- E2, <- E3. auto.
Qed.

Lemma bidx_lt n i : (0 < n)%nat -> (n = 1 \/ i < n)%nat -> (bidx n i < n)%nat.
Proof. unfold bidx. destruct (Nat.eqb_spec n 1); lia. Qed.

Lemma ll_reps_pos m : wf m -> (exists s, ll_shape m = Ok s) -> (forall r, (r < ll_reps m)%nat -> (0 < ll_reps m)%nat).
Proof. intros. lia. Qed.

Lemma pos_induction (P : module -> nat -> nat -> nat -> Prop) :
  (forall l f c r, leaf_okb l = true -> (f < length (query (l_scope l)))%nat -> (c < l_ch l)%nat -> (r < l_rep l)%nat -> P (MLeaf l) f c r) ->
  (forall ch co rr lg f c r, wf (MSum ch co rr lg) -> aligned ch -> pos (MSum ch co rr lg) f c r ->
     (forall ci, (ci < channels (out_shape ch))%nat -> pos ch f ci (bidx (ll_reps ch) r) /\ P ch f ci (bidx (ll_reps ch) r)) ->
     P (MSum ch co rr lg) f c r) ->
  (forall sc pre ch post g c r, wf (MCat false sc (pre ++ ch :: post)) -> aligned (MCat false sc (pre ++ ch :: post)) ->
     pos ch g c r -> wf ch -> aligned ch ->
     pos (MCat false sc (pre ++ ch :: post)) (nsum (map (fun c => features (out_shape c)) pre) + g) c r ->
     nthq (MCat false sc (pre ++ ch :: post)) (nsum (map (fun c => features (out_shape c)) pre) + g) = nthq ch g ->
     P ch g c r ->
     P (MCat false sc (pre ++ ch :: post)) (nsum (map (fun c => features (out_shape c)) pre) + g)%nat c r) ->
  (forall sc pre ch post f k r, wf (MCat true sc (pre ++ ch :: post)) -> aligned (MCat true sc (pre ++ ch :: post)) ->
     pos ch f k r -> wf ch -> aligned ch ->
     pos (MCat true sc (pre ++ ch :: post)) f (nsum (map (fun c => channels (out_shape c)) pre) + k) r ->
     nthq (MCat true sc (pre ++ ch :: post)) f = nthq ch f ->
     P ch f k r ->
     P (MCat true sc (pre ++ ch :: post)) f (nsum (map (fun c => channels (out_shape c)) pre) + k)%nat r) ->
  (forall ch c r, wf ch -> aligned ch -> pos (MProduct ch) 0 c r ->
     (forall f, (f < features (out_shape ch))%nat -> pos ch f c r /\ P ch f c r) -> P (MProduct ch) 0%nat c r) ->
  forall m, wf m -> aligned m -> forall f c r, pos m f c r -> P m f c r.
Proof.
  intros HL HS HC1 HC2 HP m.
  induction m as [l|ch co rr lg IH|d2 sc cs IH|ch IH] using module_ind'; intros W A f c r HP0; pose proof HP0 as ((s & Hs) & Hf & Hc & Hr).
  - apply HL; auto.
  - apply HS; auto. intros ci Hci. cbn in W. destruct W as [W Hco].
    assert (pos ch f ci (bidx (ll_reps ch) r)) as HP1.
    { split; [eapply ll_shape_sum; eauto|]. cbn in Hf, Hr. repeat split; auto.
      destruct (Nat.eqb_spec (ll_reps ch) 1) as [E|E]; apply bidx_lt; lia. }
    split; [assumption|]. apply IH; auto.
  - pose proof (wf_cat_children _ _ _ W) as Wc. pose proof (aligned_cat_children _ _ _ A) as Ac.
    pose proof (ll_shape_cat _ _ _ _ Wc Hs) as Hch.
    rewrite Forall_forall in IH, Wc, Ac.
    destruct d2.
    + pose proof Hc as Hc'. rewrite out_shape_cat2 in Hc'. apply cat2_locate in Hc'.
      destruct Hc' as (pre & ch & post & k & E & Hk & ->). subst cs.
      assert (In ch (pre ++ ch :: post)) as Hin by apply in_elt.
      destruct (Hch ch Hin) as [S1 S2].
      pose proof W as W'. cbn in W'. destruct W' as (Hne & _ & HF & Heq & Hsc). 
      assert (features (out_shape ch) = features (out_shape (MCat true sc (pre ++ ch :: post)))) as EF.
      { rewrite Forall_forall in HF. rewrite (HF ch Hin). destruct pre; reflexivity. }
      assert (pos ch f k r) as HP1 by (repeat split; auto; [now rewrite EF|now rewrite S2]).
      apply HC2; auto.
      * cbn in A. destruct A as [_ A]. specialize (A eq_refl). rewrite Forall_forall in A.
        unfold nthq. rewrite (A ch Hin). reflexivity.
    + pose proof Hf as Hf'. rewrite out_shape_cat1 in Hf'. apply cat1_locate in Hf'.
      destruct Hf' as (pre & ch & post & g & E & Hg & ->). subst cs.
      assert (In ch (pre ++ ch :: post)) as Hin by apply in_elt.
      destruct (Hch ch Hin) as [S1 S2].
      pose proof W as W'. cbn in W'. destruct W' as (Hne & _ & HF & HD & Hv & HU).
      assert (channels (out_shape ch) = channels (out_shape (MCat false sc (pre ++ ch :: post)))) as EF.
      { rewrite Forall_forall in HF. rewrite (HF ch Hin). destruct pre; reflexivity. }
      assert (pos ch g c r) as HP1 by (repeat split; auto; [now rewrite EF|now rewrite S2]).
      apply HC1; auto.
      * unfold nthq. cbn [fts]. apply nth_concat_locate; [|assumption].
        apply Forall_forall. intros x Hx. apply wf_len, wf_wf1, Wc, Hx.
  - cbn in W, A, Hf, Hc, Hr. assert (f = 0%nat) as -> by lia. apply HP; auto. intros f Hf'.
    assert (pos ch f c r) as HP1 by (split; [eapply ll_shape_product; eauto|auto]).
    split; [assumption|]. apply IH; auto.
Qed.
