(** prune_sums preserves the circuit's function. *)
From Coq Require Import List Arith Bool Reals Lia Lra.
From Verif Require Import Base ScopeModel ScopeProofs CircuitModel CircuitSpec CircuitBasics CircuitEval CircuitProps MargProofs
  PruneModel PruneSpec.
Import ListNotations.
Local Open Scope R_scope.

Ltac dif H := match type of H with (if ?b then _ else _) = _ => destruct b eqn:?; [discriminate|] end.

(** *** built, from outside in *)
Lemma built_cases m : built m ->
  match m with
  | MLeaf l => leaf_okb l = true
  | MSum c co rr lg => built c
  | MCat d2 sc cs => Forall built cs /\ mk_cat d2 cs = Ok (MCat d2 sc cs)
  | MProduct c => built c
  end.
Proof.
  assert (KC : forall d2 cs m, mk_cat d2 cs = Ok m -> exists sc, m = MCat d2 sc cs).
  { intros d2 cs m0 H. unfold mk_cat in H. destruct cs as [|c0 cs]; [discriminate|]. destruct d2.
    - destruct (forallb _ _); [|discriminate]. destruct (all_equal _); [|discriminate]. injection H as <-. eauto.
    - destruct (forallb _ _); [|discriminate].
      destruct (all_pairwise_disjoint _) as [[]|]; cbn [bind] in H; try discriminate.
      destruct (join_all _); cbn [bind] in H; [|discriminate]. injection H as <-. eauto. }
  assert (KS : forall c co rr w m, set_weights c co rr w = Ok m -> exists lg, m = MSum c co rr lg).
  { intros c co rr w m0 H. unfold set_weights in H. do 3 (destruct (negb _); [discriminate|]). injection H as <-. eauto. }
  induction 1 as [l H|d2 cs m Hcs H|cs m Hcs H|c co nr w m Hc IH H|c co nr rnd m Hc IH Hnr H|c co rr lg lg' H IH].
  - exact H.
  - destruct (KC _ _ _ H) as (sc & ->). split; assumption.
  - unfold mk_product in H. destruct cs as [|c [|c' cs]].
    + discriminate.
    + injection H as <-. now inversion Hcs.
    + destruct (mk_cat false (c :: c' :: cs)) as [k|] eqn:E; [|discriminate]. cbn [bind] in H. injection H as <-.
      eapply b_cat; eauto.
  - unfold mk_sum_w in H. do 3 dif H. destruct (KS _ _ _ _ _ H) as (lg & ->). exact Hc.
  - unfold mk_sum_rand in H. destruct (Nat.ltb co 1); [discriminate|]. destruct (KS _ _ _ _ _ H) as (lg & ->). exact Hc.
  - exact IH.
Qed.

Lemma set_weights_swap c c' co rr w m : out_shape c' = out_shape c -> set_weights c co rr w = Ok m ->
  exists lg, m = MSum c co rr lg /\ set_weights c' co rr w = Ok (MSum c' co rr lg).
Proof.
  intros E H. unfold set_weights in *. rewrite E. do 3 (destruct (negb _); [discriminate|]). injection H as <-. eauto.
Qed.
Lemma built_sum_swap m : built m -> forall c c' co rr lg, m = MSum c co rr lg -> out_shape c' = out_shape c -> built c' ->
  built (MSum c' co rr lg).
Proof.
  induction 1 as [l H|d2 cs m Hcs H|cs m Hcs H|d co1 nr w m Hc IH H|d co1 nr rnd m Hc IH Hnr H|d co1 rr1 lg1 lg' H IH];
    intros c c' co rr lg E ES B; subst.
  - discriminate.
  - exfalso. pose proof (built_cases _ (b_cat _ _ _ Hcs H)) as K. unfold mk_cat in H. destruct cs; [discriminate|].
    destruct d2; [destruct (forallb _ _); [destruct (all_equal _); discriminate|discriminate]|].
    destruct (forallb _ _); [|discriminate]. destruct (all_pairwise_disjoint _) as [[]|]; cbn [bind] in H; try discriminate. destruct (join_all _); discriminate.
  - exfalso. unfold mk_product in H. destruct cs as [|a [|b cs]]; try discriminate.
    destruct (mk_cat _ _); discriminate.
  - pose proof H as H0. unfold mk_sum_w in H. do 3 dif H.
    destruct (set_weights_swap d d _ _ _ _ eq_refl H) as (lg0 & E0 & _).
    injection E0 as Ec Eo Er El. subst c co rr. destruct (set_weights_swap _ c' _ _ _ _ ES H) as (lg1 & E1 & K).
    injection E1 as <-. eapply (b_sum_w c' co1 nr w _ B). unfold mk_sum_w. rewrite Heqb, Heqb0, Heqb1. exact K.
  - unfold mk_sum_rand in H. destruct (Nat.ltb co1 1) eqn:E1; [discriminate|].
    destruct (set_weights_swap d d _ _ _ _ eq_refl H) as (lg0 & E0 & _). injection E0 as Ec Eo Er El. subst c co rr.
    destruct (set_weights_swap _ c' _ _ _ _ ES H) as (lg2 & E2 & K). injection E2 as <-.
    eapply (b_sum_rand c' co1 nr rnd _ B Hnr). unfold mk_sum_rand. rewrite E1, ES. exact K.
  - injection E as <- <- <- <-. eapply b_log_weights. eapply IH; eauto.
Qed.

Lemma mk_cat_swap d2 sc cs cs' : mk_cat d2 cs = Ok (MCat d2 sc cs) -> map out_shape cs' = map out_shape cs ->
  map scope_of cs' = map scope_of cs -> mk_cat d2 cs' = Ok (MCat d2 sc cs').
Proof.
  intros H ES EC. destruct cs as [|c0 cs]; [discriminate|]. destruct cs' as [|c0' cs']; [discriminate|].
  assert (FB : forall g : shape -> shape -> bool,
    forallb (fun c => g (out_shape c) (out_shape c0')) (c0' :: cs') = forallb (fun c => g (out_shape c) (out_shape c0)) (c0 :: cs)).
  { intros g. assert (K : forall l a, forallb (fun c => g (out_shape c) a) l = forallb (fun x => g x a) (map out_shape l)).
    { intros l a. induction l as [|x l IH]; [reflexivity|]. cbn [map forallb]. now rewrite IH. }
    rewrite !K, ES. injection ES as E0 _. now rewrite E0. }
  unfold mk_cat in *. destruct d2.
  - rewrite (FB (fun a b => Nat.eqb (features a) (features b))), EC.
    destruct (forallb _ _); [|discriminate]. destruct (all_equal _); [|discriminate].
    injection EC as E0 _. rewrite E0. injection H as <-. reflexivity.
  - rewrite (FB (fun a b => Nat.eqb (channels a) (channels b))), EC.
    destruct (forallb _ _); [|discriminate].
    destruct (all_pairwise_disjoint _) as [[]|]; cbn [bind] in *; try discriminate.
    destruct (join_all _); cbn [bind] in *; [|discriminate]. injection H as <-. reflexivity.
Qed.

(** *** picking from a concatenation *)
Fixpoint mpick (H : module -> nat -> R) (ms : list module) (j : nat) : R :=
  match ms with
  | [] => 0
  | m :: rest => if Nat.ltb j (channels (out_shape m)) then H m j else mpick H rest (j - channels (out_shape m))
  end.
Notation nch ms := (nsum (map (fun m => channels (out_shape m)) ms)).

Lemma mpick_app H a b j : mpick H (a ++ b) j = if Nat.ltb j (nch a) then mpick H a j else mpick H b (j - nch a).
Proof.
  revert j. induction a as [|m a IH]; intros j; cbn [app mpick map nsum].
  - cbn. now rewrite Nat.sub_0_r.
  - set (c := channels (out_shape m)). destruct (Nat.ltb_spec j c).
    + destruct (Nat.ltb_spec j (c + nch a)); [reflexivity|lia].
    + rewrite IH. destruct (Nat.ltb_spec (j - c) (nch a)), (Nat.ltb_spec j (c + nch a)); try lia; try reflexivity.
      f_equal. lia.
Qed.
Lemma mpick_ext H H' ms j : (forall m k, In m ms -> (k < channels (out_shape m))%nat -> H m k = H' m k) -> mpick H ms j = mpick H' ms j.
Proof.
  revert j. induction ms as [|m ms IH]; intros j K; [reflexivity|]. cbn.
  destruct (Nat.ltb_spec j (channels (out_shape m))); [apply K; [now left|assumption]|].
  apply IH. intros; apply K; [now right|assumption].
Qed.
Lemma mpick_const ms j : (j < nch ms)%nat -> mpick (fun _ _ => 1) ms j = 1.
Proof.
  revert j. induction ms as [|m ms IH]; intros j Hj; cbn in *; [lia|].
  destruct (Nat.ltb_spec j (channels (out_shape m))); [reflexivity|]. apply IH. lia.
Qed.
Lemma mpick_cat s sc ms f j r : mpick (fun m k => pev s m f k r) ms j = pev s (MCat true sc ms) f j r.
Proof.
  unfold pev. cbn [evalm]. revert j. induction ms as [|m ms IH]; intros j; [reflexivity|]. cbn [mpick map catpick].
  destruct (Nat.ltb _ _); [reflexivity|]. apply IH.
Qed.
Lemma nch_app a b : nch (a ++ b) = (nch a + nch b)%nat.
Proof. induction a as [|m a IH]; cbn; [reflexivity|]. rewrite IH. lia. Qed.
Lemma cat_nch sc ms : channels (out_shape (MCat true sc ms)) = nch ms.
Proof. cbn. now rewrite map_map. Qed.

(** flattening a Cat of Cats *)
Lemma mpick_flat s ins f j r : Forall (fun m => exists sc cs, m = MCat true sc cs) ins ->
  mpick (fun m k => pev s m f k r) (flat_map cat_inputs ins) j = mpick (fun m k => pev s m f k r) ins j.
Proof.
  intros H. revert j. induction H as [|m ins (sc & cs & ->) H IH]; intros j; [reflexivity|].
  cbn [flat_map cat_inputs mpick]. rewrite mpick_app, IH, cat_nch. destruct (Nat.ltb_spec j (nch cs)); [|reflexivity].
  now rewrite (mpick_cat s sc).
Qed.
Lemma nch_flat ins : Forall (fun m => exists sc cs, m = MCat true sc cs) ins -> nch (flat_map cat_inputs ins) = nch ins.
Proof.
  induction 1 as [|m ins (sc & cs & ->) H IH]; [reflexivity|]. cbn [flat_map cat_inputs map nsum]. rewrite nch_app, IH.
  f_equal. now rewrite <- (cat_nch sc).
Qed.

(** *** merged weights *)
Lemma bidx_id n i : (i < n)%nat -> bidx n i = i.
Proof. unfold bidx. destruct (Nat.eqb_spec n 1); lia. Qed.

Section Merge.
Variables (F co Rr : nat) (cur : wtensor).
Hypothesis HF : wF cur = F.
Hypothesis HO : wO cur = co.
Hypothesis HR : wR cur = Rr.
Definition single (c : module) : Prop := exists ch lg, c = MSum ch 1 Rr lg /\ features (out_shape ch) = F /\ (0 < channels (out_shape ch))%nat.

Lemma merge_weights cs : cs <> [] -> Forall single cs -> forall i, (i + length cs <= wI cur)%nat ->
  exists us t, scaled_all (map weights_of cs) cur i = Ok us /\ us <> [] /\ wconcat us = Ok t /\
    wF t = F /\ wO t = co /\ wR t = Rr /\ wI t = nch (map sum_input cs) /\
    (forall f j o r, (f < F)%nat -> (o < co)%nat -> (r < Rr)%nat -> (forall k, (i <= k < i + length cs)%nat -> 0 < wv cur f k o r) ->
       (j < wI t)%nat -> 0 < wv t f j o r) /\
    (forall H f o r, (f < F)%nat -> (o < co)%nat -> (r < Rr)%nat ->
       bsum (wI t) (fun j => wv t f j o r * mpick H (map sum_input cs) j) =
       bsum (length cs) (fun k => wv cur f (i + k) o r *
         let c := nth k cs (MCat true (mkScope [] []) []) in
         bsum (channels (out_shape (sum_input c))) (fun j => wv (weights_of c) f j 0 r * H (sum_input c) j))).
Proof.
  induction cs as [|c cs IH]; intros Hne HS i Hi; [congruence|]. clear Hne.
  pose proof (Forall_inv HS) as Hc. pose proof (Forall_inv_tail HS) as HS'. destruct Hc as (ch & lg & -> & Ef & Hch).
  cbn [length] in Hi. set (c := MSum ch 1 Rr lg).
  set (n := channels (out_shape ch)) in *.
  set (v := fun f j o r => wv (weights_of c) (bidx F f) j (bidx 1 o) (bidx Rr r) * wv cur (bidx F f) i (bidx co o) (bidx Rr r)).
  assert (E1 : scaled (weights_of c) cur i = Ok (mkW F n co Rr v)).
  { unfold scaled. destruct (Nat.leb_spec (wI cur) i); [lia|]. cbn [weights_of c wF wO wR wI]. fold n.
    rewrite Ef, HF, HO, HR, !bcast_same. cbn [bind].
    assert (bcast 1 co = Ok co) as ->.
    { unfold bcast. destruct (Nat.eqb_spec 1 co) as [<-|]; reflexivity. }
    cbn [bind]. unfold v. cbn [weights_of c wv]. reflexivity. }
  assert (V0 : forall f j o r, (f < F)%nat -> (o < co)%nat -> (r < Rr)%nat -> v f j o r = wv (weights_of c) f j 0 r * wv cur f i o r).
  { intros f j o r A B C. unfold v. change (bidx 1 o) with 0%nat. rewrite (bidx_id F f A), (bidx_id co o B), (bidx_id Rr r C). reflexivity. }
  assert (P0 : forall f j r, 0 < wv (weights_of c) f j 0 r).
  { intros f j r. cbn [weights_of c wv]. now apply softmax_pos. }
  destruct cs as [|c' cs'].
  - exists [mkW F n co Rr v], (mkW F n co Rr v). cbn [map scaled_all]. rewrite E1. cbn [bind wconcat wF wO wR wI map nsum].
    split; [reflexivity|]. split; [discriminate|]. do 4 (split; [reflexivity|]). split; [cbn [sum_input c]; fold n; lia|]. split.
    + intros f j o r A B C D _. rewrite V0 by assumption. apply Rmult_lt_0_compat; [apply P0|apply D; cbn; lia].
    + intros H f o r A B C. cbn [length bsum nth sum_input c]. fold n. rewrite Rplus_0_l, Nat.add_0_r.
      rewrite <- bsum_scal. apply bsum_ext. intros j Hj. cbn [mpick sum_input]. fold n.
      destruct (Nat.ltb_spec j n); [|lia]. cbn [wv]. rewrite V0 by assumption. fold c. ring.
  - destruct (IH ltac:(discriminate) HS' (S i) ltac:(cbn [length]; cbn [length] in Hi; lia)) as (us & t & A1 & A2 & A3 & A4 & A5 & A6 & A7 & A8 & A9).
    set (cs := c' :: cs') in *. clearbody cs.
    exists (mkW F n co Rr v :: us). eexists. split.
    { cbn [map scaled_all]. rewrite E1. cbn [bind]. rewrite A1. reflexivity. }
    split; [discriminate|]. split.
    { cbn [wconcat]. destruct us as [|u us]; [congruence|]. rewrite A3. cbn [bind wF wO wR].
      rewrite A4, A5, A6, !Nat.eqb_refl. cbn [andb]. reflexivity. }
    cbn [wF wO wR wI wv]. do 3 (split; [reflexivity|]). split.
    { cbn [map nsum sum_input c]. fold n. now rewrite A7. } split.
    + intros f j o r A B C D Hj. destruct (Nat.ltb_spec j n).
      * rewrite V0 by assumption. apply Rmult_lt_0_compat; [apply P0|apply D; cbn [length]; lia].
      * apply A8; try assumption; [|lia]. intros k Hk. apply D. cbn [length] in *. lia.
    + intros H f o r A B C. rewrite bsum_app. replace (length (c :: cs)) with (1 + length cs)%nat by reflexivity. rewrite bsum_app.
      cbn [map mpick]. change (channels (out_shape (sum_input c))) with n. f_equal.
      * cbn [bsum nth sum_input c]. fold n. rewrite Rplus_0_l, Nat.add_0_r, <- bsum_scal. apply bsum_ext. intros j Hj.
        destruct (Nat.ltb_spec j n); [|lia]. rewrite V0 by assumption. fold c. ring.
      * rewrite (bsum_ext (wI t) _ (fun j => wv t f j o r * mpick H (map sum_input cs) j)).
        2:{ intros j Hj. destruct (Nat.ltb_spec (n + j) n); [lia|]. replace (n + j - n)%nat with j by lia. reflexivity. }
        rewrite A9 by assumption. apply bsum_ext. intros k Hk. replace (S i + k)%nat with (i + (1 + k))%nat by lia. reflexivity.
Qed.
End Merge.
