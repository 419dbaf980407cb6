(** Signed evaluation: log-sum-exp with signs, concatenation, exactness. *)
From Coq Require Import List Arith ZArith Bool Reals Lia Lra Sorted.
From Coquelicot Require Import Coquelicot.
From Verif Require Import Base ScopeModel ScopeProofs CircuitModel CircuitBasics CircuitSpec CircuitEval CircuitProps Integral
  LeafModel LeafSpec LeafProofs LeafTop SignedModel SignedSpec.
Import ListNotations.
Local Open Scope R_scope.

(** ** signed log-sum-exp *)
Lemma lmax2_ninf a b : lmax2 a b = NInf -> a = NInf /\ b = NInf.
Proof. destruct a, b; cbn; auto; discriminate. Qed.
Lemma lmax_ninf n a : lmax n a = NInf -> forall i, (i < n)%nat -> a i = NInf.
Proof.
  induction n as [|n IH]; cbn [lmax]; intros H i Hi; [lia|].
  apply lmax2_ninf in H. destruct H as [H1 H2]. destruct (Nat.eq_dec i n) as [->|]; [assumption|]. apply IH; [assumption|lia].
Qed.

Lemma sgn_abs x : IZR (sgn x) * Rabs x = x.
Proof.
  unfold sgn. destruct (Rlt_dec x 0); [rewrite Rabs_left by assumption; ring|].
  destruct (Rlt_dec 0 x); [rewrite Rabs_right by lra; ring|].
  replace x with 0 by lra. ring.
Qed.
Lemma sgn_0 : sgn 0 = 0%Z.
Proof. unfold sgn. destruct (Rlt_dec 0 0); [lra|reflexivity]. Qed.

Lemma slse_spec n t :
  real_of (slse n t) = bsum n (fun i => real_of (t i)) /\
  pr (fst (slse n t)) = Rabs (bsum n (fun i => real_of (t i))) /\
  snd (slse n t) = sgn (bsum n (fun i => real_of (t i))).
Proof.
  assert (pr (fst (slse n t)) = Rabs (bsum n (fun i => real_of (t i))) /\
          snd (slse n t) = sgn (bsum n (fun i => real_of (t i)))) as [A B].
  - unfold slse. destruct (lmax n (fun i => fst (t i))) as [|m] eqn:E.
    + assert (bsum n (fun i => real_of (t i)) = 0) as ->.
      { apply bsum_zero. intros i Hi. unfold real_of. pose proof (lmax_ninf _ _ E i Hi) as X. cbn in X. rewrite X. cbn. ring. }
      cbn. rewrite Rabs_R0, sgn_0. auto.
    + set (s := bsum n _). cbv zeta.
      assert (bsum n (fun i => real_of (t i)) = exp m * s) as ->.
      { unfold s. rewrite <- bsum_scal. apply bsum_ext. intros i Hi. unfold real_of, scaled.
        destruct (fst (t i)) as [|a]; cbn [pr]; [ring|].
        unfold Rminus. rewrite exp_plus, exp_Ropp. pose proof (exp_pos m). field. lra. }
      pose proof (exp_pos m) as Hm. cbn [fst snd]. split.
      * destruct (Req_EM_T s 0) as [->|Hs]; [rewrite Rmult_0_r, Rabs_R0; reflexivity|].
        cbn [pr]. rewrite exp_plus, exp_ln by now apply Rabs_pos_lt.
        rewrite Rabs_mult, (Rabs_right (exp m)) by lra. reflexivity.
      * unfold sgn. destruct (Rlt_dec s 0) as [L|L].
        -- destruct (Rlt_dec (exp m * s) 0) as [_|N]; [reflexivity|]. exfalso. apply N. nra.
        -- destruct (Rlt_dec (exp m * s) 0) as [N|_]; [exfalso; nra|].
           destruct (Rlt_dec 0 s) as [L2|L2], (Rlt_dec 0 (exp m * s)) as [N|N]; try reflexivity; exfalso; nra.
  - split; [|auto]. unfold real_of at 1. rewrite A, B. apply sgn_abs.
Qed.

(** ** concatenation *)
Lemma smod_ind' (P : smod -> Prop) :
  (forall l, P (SLeaf l)) ->
  (forall c co rr lg, P c -> P (SSum c co rr lg)) ->
  (forall c co rr w, P c -> P (SSigned c co rr w)) ->
  (forall d2 sc cs, Forall P cs -> P (SCat d2 sc cs)) ->
  (forall c, P c -> P (SProduct c)) ->
  forall m, P m.
Proof.
  intros HL HS HG HC HP. fix IH 1. intros [l|c co rr lg|c co rr w|d2 sc cs|c].
  - apply HL.
  - apply HS, IH.
  - apply HG, IH.
  - apply HC. induction cs as [|c cs IHcs]; constructor; [apply IH|exact IHcs].
  - apply HP, IH.
Qed.

Lemma sgo_Forall (P : smod -> Prop) cs :
  (fix go (l : list smod) : Prop := match l with [] => True | c :: r => P c /\ go r end) cs <-> Forall P cs.
Proof.
  induction cs as [|c cs IH]; [split; [constructor|trivial]|].
  rewrite IH. split; [intros [A B]; now constructor|intros H; inversion H; now split].
Qed.

Section Pick.
  Context {A : Type} (len : A -> nat).
  Lemma pick_some l i : forall a k, pick len l i = Some (a, k) ->
    exists pre post, l = pre ++ a :: post /\ (k < len a)%nat /\ i = (nsum (map len pre) + k)%nat.
  Proof.
    revert i. induction l as [|b l IH]; cbn [pick]; intros i a k H; [discriminate|].
    destruct (Nat.ltb_spec i (len b)) as [L|L].
    - injection H as <- <-. exists [], l. cbn. auto.
    - apply IH in H. destruct H as (pre & post & -> & Hk & E). exists (b :: pre), post. cbn [map nsum app].
      repeat split; auto. lia.
  Qed.
  Lemma pick_at pre a post k : (k < len a)%nat -> pick len (pre ++ a :: post) (nsum (map len pre) + k) = Some (a, k).
  Proof.
    intros Hk. induction pre as [|b pre IH]; cbn [app pick map nsum].
    - destruct (Nat.ltb_spec (0 + k) (len a)); [reflexivity|lia].
    - destruct (Nat.ltb_spec (len b + nsum (map len pre) + k) (len b)); [lia|].
      replace (len b + nsum (map len pre) + k - len b)%nat with (nsum (map len pre) + k)%nat by lia. exact IH.
  Qed.
  Lemma pick_total l i : (i < nsum (map len l))%nat -> exists a k, pick len l i = Some (a, k).
  Proof.
    revert i. induction l as [|b l IH]; cbn [pick map nsum]; intros i H; [lia|].
    destruct (Nat.ltb_spec i (len b)) as [L|L]; [eauto|]. apply IH. lia.
  Qed.
  Lemma pick_In l i a k : pick len l i = Some (a, k) -> In a l /\ (k < len a)%nat.
  Proof. intros H. apply pick_some in H. destruct H as (pre & post & -> & Hk & _). split; [apply in_elt|assumption]. Qed.
End Pick.

Lemma pick_map {A B} (len : A -> nat) (len' : B -> nat) (g : A -> B) l i :
  (forall a, In a l -> len' (g a) = len a) ->
  pick len' (map g l) i = match pick len l i with Some (a, k) => Some (g a, k) | None => None end.
Proof.
  revert i. induction l as [|a l IH]; intros i H; [reflexivity|]. cbn [map pick].
  rewrite H by now left. destruct (Nat.ltb i (len a)); [reflexivity|]. apply IH. intros; apply H; now right.
Qed.

Lemma combine_map_l {A B C} (g : A -> B) (l : list A) (l' : list C) :
  combine (map g l) l' = map (fun p => (g (fst p), snd p)) (combine l l').
Proof. revert l'. induction l as [|a l IH]; intros [|c l']; cbn; auto. now rewrite IH. Qed.

Lemma pick_combine {A B} (len : A -> nat) (l : list A) (l' : list B) i : length l = length l' ->
  match pick (fun p => len (fst p)) (combine l l') i with
  | Some (p, k) => pick len l i = Some (fst p, k) /\ In p (combine l l')
  | None => pick len l i = None
  end.
Proof.
  revert l' i. induction l as [|a l IH]; intros [|b l'] i H; cbn in H; try lia; [reflexivity|].
  cbn [combine pick fst]. destruct (Nat.ltb i (len a)); [cbn; auto|].
  specialize (IH l' (i - len a)%nat ltac:(lia)).
  destruct (pick (fun p => len (fst p)) (combine l l') (i - len a)) as [[p k]|]; cbn; [tauto|assumption].
Qed.

Lemma mapR_ok {A B} (g : A -> result B) l bs : mapR g l = Ok bs -> Forall2 (fun a b => g a = Ok b) l bs.
Proof.
  revert bs. induction l as [|a l IH]; cbn; intros bs H; [injection H as <-; constructor|].
  destruct (g a) as [b|] eqn:E; [|discriminate]. cbn in H.
  destruct (mapR g l) as [bs'|] eqn:E'; [|discriminate]. cbn in H. injection H as <-. constructor; auto.
Qed.
Lemma mapR_all {A B} (g : A -> result B) l : (forall a, In a l -> exists b, g a = Ok b) -> exists bs, mapR g l = Ok bs.
Proof.
  induction l as [|a l IH]; intros H; [now exists []|]. cbn.
  destruct (H a) as [b ->]; [now left|]. destruct IH as [bs ->]; [intros; apply H; now right|]. cbn. eauto.
Qed.
Lemma Forall2_len {A B} (Q : A -> B -> Prop) l l' : Forall2 Q l l' -> length l = length l'.
Proof. induction 1; cbn; congruence. Qed.
Lemma Forall2_combine {A B} (Q : A -> B -> Prop) l l' : Forall2 Q l l' -> Forall (fun p => Q (fst p) (snd p)) (combine l l').
Proof. induction 1; cbn; constructor; auto. Qed.

(** value of a concatenated tensor *)
Lemma catp_combine {A} (d : A) d2 (cs : list smod) (ts : list (T3 A)) (Q : smod -> T3 A -> Prop) f c r m k :
  Forall2 Q cs ts -> pick (sdim d2) cs (if d2 then c else f) = Some (m, k) ->
  exists t, Q m t /\ catp d d2 (combine (map (sdim d2) cs) ts) f c r = if d2 then t f k r else t k c r.
Proof.
  intros H Hp. unfold catp. rewrite combine_map_l.
  rewrite (pick_map (fun p => sdim d2 (fst p)) fst (fun p => (sdim d2 (fst p), snd p))) by reflexivity.
  pose proof (pick_combine (sdim d2) cs ts (if d2 then c else f) (Forall2_len _ _ _ H)) as X.
  destruct (pick (fun p => sdim d2 (fst p)) (combine cs ts) (if d2 then c else f)) as [[[m' t] k']|].
  - destruct X as [X Hin]. cbn in X. rewrite Hp in X. injection X as <- <-.
    exists t. split; [|reflexivity].
    pose proof (Forall2_combine _ _ _ H) as Y. rewrite Forall_forall in Y. exact (Y _ Hin).
  - rewrite Hp in X. discriminate.
Qed.

Lemma fun_cat d2 sc cs x f c r m k :
  pick (sdim d2) cs (if d2 then c else f) = Some (m, k) ->
  fun_of (SCat d2 sc cs) x f c r = if d2 then fun_of m x f k r else fun_of m x k c r.
Proof.
  intros Hp. cbn [fun_of]. unfold catp.
  rewrite (pick_map (sdim d2) fst (fun ch => (sdim d2 ch, fun_of ch x))) by reflexivity. now rewrite Hp.
Qed.

(** ** structure *)
Lemma map_fix_uniform Rr cs :
  (fix go (l : list module) : Prop := match l with [] => True | c :: r => uniform Rr c /\ go r end) (map skel cs)
  <-> Forall (fun c => uniform Rr (skel c)) cs.
Proof.
  induction cs as [|c cs IH]; cbn; [split; auto|]. rewrite IH. split; [intros [A B]; now constructor|intros H; inversion H; now split].
Qed.

Lemma sleaves_cat d2 sc cs : sleaves (SCat d2 sc cs) = concat (map sleaves cs).
Proof. cbn. induction cs as [|c cs IH]; [reflexivity|]. cbn. now rewrite IH. Qed.
Lemma Forall_leaves_cat (P : sleaf -> Prop) d2 sc cs :
  Forall P (sleaves (SCat d2 sc cs)) <-> Forall (fun c => Forall P (sleaves c)) cs.
Proof.
  rewrite sleaves_cat. induction cs as [|c cs IH]; cbn; [split; constructor|].
  rewrite Forall_app, IH. split; [intros [A B]; now constructor|intros H; inversion H; now split].
Qed.
Lemma signed_weights_cat P d2 sc cs : signed_weights P (SCat d2 sc cs) <-> Forall (signed_weights P) cs.
Proof. cbn. apply sgo_Forall. Qed.

Lemma wf_scat d2 sc cs : wf (skel (SCat d2 sc cs)) -> Forall (fun c => wf (skel c)) cs.
Proof. intros W. cbn [skel] in W. apply wf_cat_children in W. apply (proj1 (Forall_map skel wf cs)) in W. exact W. Qed.

Lemma sdim_cat d2 sc cs : sdim d2 (SCat d2 sc cs) = nsum (map (sdim d2) cs).
Proof. destruct d2; unfold sdim, schan, sfeat; cbn; now rewrite !map_map. Qed.

Lemma cat_other d2 sc cs m : wf (skel (SCat d2 sc cs)) -> In m cs ->
  (if d2 then sfeat m = sfeat (SCat d2 sc cs) else schan m = schan (SCat d2 sc cs)).
Proof.
  intros W Hin. cbn in W. destruct W as (Hne & _ & W).
  unfold sfeat, schan. destruct d2.
  - destruct W as (HF & _). rewrite Forall_forall in HF. rewrite (HF (skel m)) by now apply in_map.
    destruct cs; [destruct Hin|reflexivity].
  - destruct W as (HF & _). rewrite Forall_forall in HF. rewrite (HF (skel m)) by now apply in_map.
    destruct cs; [destruct Hin|reflexivity].
Qed.

(** a position of a Cat comes from a position of one of its inputs *)
Lemma cat_pos Rr d2 sc cs f c r : wf (skel (SCat d2 sc cs)) -> pos_ok Rr (SCat d2 sc cs) f c r ->
  exists m k, pick (sdim d2) cs (if d2 then c else f) = Some (m, k) /\ In m cs /\ wf (skel m) /\
    pos_ok Rr m (if d2 then f else k) (if d2 then k else c) r.
Proof.
  intros W [Hf Hc Hr].
  assert ((if d2 then c else f) < nsum (map (sdim d2) cs))%nat as Hi.
  { rewrite <- (sdim_cat d2 sc). destruct d2; assumption. }
  destruct (pick_total (sdim d2) cs _ Hi) as (m & k & E). exists m, k. split; [assumption|].
  destruct (pick_In _ _ _ _ _ E) as [Hin Hk]. split; [assumption|].
  pose proof (wf_scat _ _ _ W) as Wc. rewrite Forall_forall in Wc. split; [auto|].
  pose proof (cat_other _ _ _ _ W Hin) as O. destruct d2; cbn [sdim] in *; split; auto; congruence.
Qed.

(** ** evaluation of monotone parts *)
Lemma fleaf_ll_val l x t : common_support l -> fleaf_ll l x = Ok t -> forall f c r, entries l f c r ->
  pr (t f c r) = leaf_fun (SFam l) x f c r.
Proof.
  intros CS. unfold fleaf_ll. destruct (validates l x) eqn:V; [|discriminate]. intros [= <-] f c r E.
  unfold leaf_fun. cbn [sl_scope]. destruct (x (nth f (query (fl_scope l)) 0%nat)) as [a|] eqn:Ex; [|apply pr_Fin0].
  unfold fam_lp. rewrite validates_true in V. specialize (V f c r E). rewrite (vsupp_common l f c r _ CS E) in V.
  unfold imputed in V. rewrite Ex in V. now rewrite V.
Qed.

Lemma mll_val Rr x m : wf (skel m) -> uniform Rr (skel m) -> uniform_support m -> forall t, mll x m = Ok t ->
  forall f c r, pos_ok Rr m f c r -> pr (t f c r) = fun_of m x f c r.
Proof.
  unfold uniform_support.
  induction m as [l|ch co rr lg IH|ch co rr w IH|d2 sc cs IH|ch IH] using smod_ind'; intros W U CS t E f c r P.
  - destruct l as [l|]; [|discriminate]. cbn in E. inversion CS as [|? ? C1 _]; subst.
    cbn [fun_of]. apply fleaf_ll_val; auto. destruct P as [Hf Hc Hr]. cbn in U, Hf, Hc. unfold entries.
    unfold sfeat, schan in *. cbn in *. rewrite U. auto.
  - cbn in E. destruct (mll x ch) as [t'|] eqn:E'; [|discriminate]. cbn in E. injection E as <-.
    cbn in W, U. rewrite pr_lse. cbn [fun_of]. apply bsum_ext. intros i Hi. rewrite pr_ladd. cbn [pr].
    rewrite exp_log_softmax by exact (Nat.lt_lt_0 _ _ Hi). rewrite Rmult_comm. f_equal. apply IH; auto; try tauto.
    destruct P. split; auto.
  - discriminate.
  - cbn in E. destruct (mapR (mll x) cs) as [ts|] eqn:E'; [|discriminate]. cbn in E. injection E as <-.
    apply mapR_ok in E'. destruct (cat_pos _ _ _ _ _ _ _ W P) as (m & k & Hp & Hin & Wm & Pm).
    destruct (catp_combine NInf d2 cs ts _ f c r m k E' Hp) as (t & Et & ->).
    rewrite (fun_cat _ _ _ _ _ _ _ _ _ Hp).
    rewrite Forall_forall in IH. apply Forall_leaves_cat in CS. rewrite Forall_forall in CS.
    cbn in U. apply map_fix_uniform in U. rewrite Forall_forall in U.
    specialize (IH m Hin Wm (U m Hin) (CS m Hin) t Et). destruct d2; apply IH; assumption.
  - cbn in E. destruct (mll x ch) as [t'|] eqn:E'; [|discriminate]. cbn in E. injection E as <-.
    rewrite pr_ladds. cbn [fun_of]. apply bprod_ext. intros g Hg. apply IH; auto. destruct P. split; auto.
Qed.

(** ** signed evaluation *)
Lemma zprod_real n (a : nat -> lval * Z) :
  real_of (ladds n (fun f => fst (a f)), zprod n (fun f => snd (a f))) = bprod n (fun f => real_of (a f)).
Proof.
  unfold real_of. cbn [fst snd]. rewrite pr_ladds. induction n as [|n IH]; cbn [bprod zprod]; [ring|].
  rewrite mult_IZR, <- IH. ring.
Qed.

Lemma clamp_val w : zero_or_normal w -> IZR (sgn w) * Rmax (Rabs w) tiny = w.
Proof.
  intros [->|H]; [rewrite sgn_0; ring|].
  unfold tiny. rewrite Rmax_left by assumption. apply sgn_abs.
Qed.
Lemma tiny_pos : 0 < tiny.
Proof. unfold tiny. apply Rinv_0_lt_compat, pow_lt. lra. Qed.
Lemma exp_clamp w : exp (ln (Rmax (Rabs w) tiny)) = Rmax (Rabs w) tiny.
Proof. apply exp_ln. pose proof tiny_pos. pose proof (Rmax_r (Rabs w) tiny). lra. Qed.

Lemma trunc_INR k : trunc (INR k) = Z.of_nat k.
Proof.
  unfold trunc. destruct (Rle_dec 0 (INR k)) as [_|N]; [|exfalso; apply N, pos_INR].
  apply Int_part_INR.
Qed.

Lemma scat_val sc ch rep K w x t : scat_eval sc K w x = Ok t ->
  (forall v, In v (query sc) -> exists k, x v = Some (INR k)) ->
  state_weights zero_or_normal (SSC sc ch rep K w) ->
  forall f c r, (f < length (query sc))%nat -> (c < ch)%nat -> (r < rep)%nat ->
  real_of (t f c r) = leaf_fun (SSC sc ch rep K w) x f c r /\
  (state_weights normal (SSC sc ch rep K w) -> pr (fst (t f c r)) = Rabs (leaf_fun (SSC sc ch rep K w) x f c r)).
Proof.
  unfold scat_eval. intros E HN SW f c r Hf Hc Hr.
  destruct (forallb _ (query sc)) eqn:B; [|discriminate]. injection E as <-.
  rewrite forallb_forall in B. set (v := nth f (query sc) 0%nat).
  assert (In v (query sc)) as Hv by (apply nth_In; assumption).
  destruct (HN v Hv) as [k Ek]. specialize (B v Hv). rewrite Ek, trunc_INR in B.
  apply andb_true_iff in B. destruct B as [_ B]. apply Z.ltb_lt in B.
  assert (k < K)%nat as Hk by lia.
  unfold leaf_fun. cbn [sl_scope]. fold v. rewrite Ek, trunc_INR, Nat2Z.id.
  unfold state_of. rewrite asnat_INR. destruct (Nat.ltb_spec k K) as [_|]; [|lia].
  unfold real_of. cbn [fst snd pr]. rewrite exp_clamp. split.
  - apply clamp_val. apply (SW f c r k); assumption.
  - intros SN. unfold tiny. apply Rmax_left. exact (SN f c r k Hf Hc Hr Hk).
Qed.

Lemma seval_val Rr x m : wf (skel m) -> uniform Rr (skel m) -> uniform_support m -> exact_weights m ->
  Forall (fun l => match l with SFam _ => True | SSC sc _ _ _ _ => forall v, In v (query sc) -> exists k, x v = Some (INR k) end) (sleaves m) ->
  forall t, seval x m = Ok t -> forall f c r, pos_ok Rr m f c r -> real_of (t f c r) = fun_of m x f c r.
Proof.
  unfold uniform_support, exact_weights.
  induction m as [l|ch co rr lg IH|ch co rr w IH|d2 sc cs IH|ch IH] using smod_ind'; intros W U CS [SW TW] HN t E f c r P.
  - destruct l as [l|sc nc nr K w].
    + cbn in E. destruct (fleaf_ll l x) as [t'|] eqn:E'; [|discriminate]. cbn in E. injection E as <-.
      unfold real_of, plus1. cbn [fst snd]. rewrite Rmult_1_l.
      apply (mll_val Rr x (SLeaf (SFam l))); auto.
    + cbn in E. destruct P as [Hf Hc Hr]. cbn in U, Hf, Hc. unfold sfeat, schan in *. cbn in Hf, Hc. subst nr.
      inversion HN; subst. inversion TW; subst. eapply scat_val; eauto.
  - remember (SSum ch co rr lg) as m. subst m. cbn [seval] in E.
    destruct (mll x (SSum ch co rr lg)) as [t'|] eqn:E'; [|discriminate]. cbn in E. injection E as <-.
    unfold real_of, plus1. cbn [fst snd]. rewrite Rmult_1_l. eapply mll_val; eauto.
  - cbn [seval] in E. destruct (seval x ch) as [t'|] eqn:E'; [|discriminate]. cbn [bind] in E. injection E as <-.
    destruct (slse_spec (schan ch) (fun ci => (ladd (fst (t' f ci r)) (Fin (ln (Rmax (Rabs (w f ci c r)) tiny))),
           (sgn (w f ci c r) * snd (t' f ci r))%Z))) as [-> _].
    cbn [fun_of]. apply bsum_ext. intros i Hi. cbn in W, U, SW. destruct P as [Hf Hc Hr].
    unfold sfeat, schan in Hf, Hc. cbn in Hf, Hc.
    assert (pos_ok Rr ch f i r) as Pi by (split; auto).
    rewrite <- (IH (proj1 W) (proj1 U) CS (conj (proj1 SW) TW) HN t' eq_refl f i r Pi).
    unfold real_of. cbn [fst snd]. rewrite pr_ladd. cbn [pr]. rewrite exp_clamp, mult_IZR.
    assert (zero_or_normal (w f i c r)) as Z.
    { apply SW; auto. destruct U as [_ U]. lia. }
    apply clamp_val in Z. rewrite <- Z at 3. ring.
  - cbn in E. destruct (mapR (seval x) cs) as [ts|] eqn:E'; [|discriminate]. cbn in E. injection E as <-.
    apply mapR_ok in E'. destruct (cat_pos _ _ _ _ _ _ _ W P) as (m & k & Hp & Hin & Wm & Pm).
    destruct (catp_combine (NInf, 0%Z) d2 cs ts _ f c r m k E' Hp) as (t & Et & ->).
    rewrite (fun_cat _ _ _ _ _ _ _ _ _ Hp).
    rewrite Forall_forall in IH. apply Forall_leaves_cat in CS, TW, HN. apply signed_weights_cat in SW.
    rewrite Forall_forall in CS, TW, HN, SW.
    cbn in U. apply map_fix_uniform in U. rewrite Forall_forall in U.
    specialize (IH m Hin Wm (U m Hin) (CS m Hin) (conj (SW m Hin) (TW m Hin)) (HN m Hin) t Et). destruct d2; apply IH; assumption.
  - cbn in E. destruct (seval x ch) as [t'|] eqn:E'; [|discriminate]. cbn [bind] in E. injection E as <-.
    rewrite zprod_real. cbn [fun_of]. apply bprod_ext. intros g Hg. apply IH; auto. destruct P. split; auto.
Qed.

Lemma state_normal l : state_weights normal l -> state_weights zero_or_normal l.
Proof. destruct l; cbn; auto. intros H f c r k A B C D. right. now apply H. Qed.

Lemma bprod_abs n (g : nat -> R) : Rabs (bprod n g) = bprod n (fun i => Rabs (g i)).
Proof. induction n as [|n IH]; cbn [bprod]; [apply Rabs_R1|]. now rewrite Rabs_mult, IH. Qed.
Lemma pr_abs a : pr a = Rabs (pr a).
Proof. symmetry. apply Rabs_right. apply Rle_ge, pr_nonneg. Qed.

Lemma seval_abs Rr x m : wf (skel m) -> uniform Rr (skel m) -> uniform_support m -> exact_weights m -> strong_root m ->
  Forall (fun l => match l with SFam _ => True | SSC sc _ _ _ _ => forall v, In v (query sc) -> exists k, x v = Some (INR k) end) (sleaves m) ->
  forall t, seval x m = Ok t -> forall f c r, pos_ok Rr m f c r -> pr (fst (t f c r)) = Rabs (fun_of m x f c r).
Proof.
  unfold uniform_support.
  induction m as [l|ch co rr lg IH|ch co rr w IH|d2 sc cs IH|ch IH] using smod_ind'; intros W U CS EW SR HN t E f c r P.
  - destruct l as [l|sc nc nr K w].
    + cbn in E. destruct (fleaf_ll l x) as [t'|] eqn:E'; [|discriminate]. cbn in E. injection E as <-.
      unfold plus1. cbn [fst]. rewrite pr_abs. f_equal. apply (mll_val Rr x (SLeaf (SFam l))); auto.
    + cbn in E. destruct P as [Hf Hc Hr]. cbn in U, Hf, Hc. unfold sfeat, schan in *. cbn in Hf, Hc. subst nr.
      inversion HN; subst. inversion SR; subst. eapply scat_val; eauto. now apply state_normal.
  - cbn [seval] in E. destruct (mll x (SSum ch co rr lg)) as [t'|] eqn:E'; [|discriminate]. cbn in E. injection E as <-.
    unfold plus1. cbn [fst]. rewrite pr_abs. f_equal. eapply mll_val; eauto.
  - pose proof (seval_val Rr x (SSigned ch co rr w) W U CS EW HN t E f c r P) as X.
    cbn [seval] in E. destruct (seval x ch) as [t'|] eqn:E'; [|discriminate]. cbn [bind] in E. injection E as <-.
    cbv beta in *. match goal with |- context [slse ?n ?t] => destruct (slse_spec n t) as (A & -> & _) end.
    now rewrite <- A, X.
  - cbn in E. destruct (mapR (seval x) cs) as [ts|] eqn:E'; [|discriminate]. cbn in E. injection E as <-.
    apply mapR_ok in E'. destruct (cat_pos _ _ _ _ _ _ _ W P) as (m & k & Hp & Hin & Wm & Pm).
    destruct (catp_combine (NInf, 0%Z) d2 cs ts _ f c r m k E' Hp) as (t & Et & ->).
    rewrite (fun_cat _ _ _ _ _ _ _ _ _ Hp).
    destruct EW as [SW TW]. cbn [strong_root] in SR.
    rewrite Forall_forall in IH. apply Forall_leaves_cat in CS, TW, HN, SR. apply signed_weights_cat in SW.
    rewrite Forall_forall in CS, TW, HN, SW, SR.
    cbn in U. apply map_fix_uniform in U. rewrite Forall_forall in U.
    assert (strong_root m) as SRm. { specialize (SR m Hin). unfold strong_root. destruct m; auto. }
    specialize (IH m Hin Wm (U m Hin) (CS m Hin) (conj (SW m Hin) (TW m Hin)) SRm (HN m Hin) t Et). destruct d2; apply IH; assumption.
  - cbn in E. destruct (seval x ch) as [t'|] eqn:E'; [|discriminate]. cbn [bind] in E. injection E as <-.
    cbn [fst]. rewrite pr_ladds. cbn [fun_of]. rewrite bprod_abs. apply bprod_ext. intros g Hg. apply IH; auto.
    + cbn [strong_root] in SR. unfold strong_root. destruct ch; auto.
    + destruct P. split; auto.
Qed.
