(** Proofs about CtxModel. *)
From Coq Require Import List Arith ZArith Bool Reals Lia Lra Permutation Sorted FinFun.
From Verif Require Import Base CtxModel CtxSpec.
Import ListNotations.

Ltac bsplit := repeat match goal with
  | H : (_ && _)%bool = true |- _ => apply andb_prop in H; destruct H
  | H : negb _ = false |- _ => apply negb_false_iff in H
  | H : Nat.eqb _ _ = true |- _ => apply Nat.eqb_eq in H
  end.

Section S.
Context {C P : Type}.
Variables (c0 : C) (c1 : C) (p1 : P) (diff : bool).
Notation consistent_at := (@consistent_at C P diff).
Notation consistent := (@consistent C P diff).

Lemma rank2 {E} (t : tensor E) : Nat.eqb (rank t) 2 = true -> dims t = [dim t 0; dim t 1].
Proof.
  unfold rank, dim. intros H%Nat.eqb_eq. destruct (dims t) as [|a [|b [|c l]]]; try discriminate. reflexivity.
Qed.
Lemma rank3 {E} (t : tensor E) : Nat.eqb (rank t) 3 = true -> exists k, dims t = [dim t 0; dim t 1; k].
Proof.
  unfold rank, dim. intros H%Nat.eqb_eq. destruct (dims t) as [|a [|b [|c [|d l]]]]; try discriminate. now exists c.
Qed.
Lemma rank1 {E} (t : tensor E) : Nat.eqb (rank t) 1 = true -> dims t = [dim t 0].
Proof.
  unfold rank, dim. intros H%Nat.eqb_eq. destruct (dims t) as [|a [|b l]]; try discriminate. reflexivity.
Qed.
Lemma dt_eqb_eq a b : dt_eqb a b = true -> a = b.
Proof. now destruct a, b. Qed.

Lemma chan_ok_dims (c : tensor C) : chan_ok diff c = true ->
  if diff then exists k, dims c = [dim c 0; dim c 1; k] else dims c = [dim c 0; dim c 1].
Proof. unfold chan_ok. destruct diff; intros H; bsplit; [apply rank3|apply rank2]; now apply Nat.eqb_eq. Qed.

Lemma norm_rep_ok B d (p p' : tensor P) : norm_rep diff B d p = Ok p' ->
  (if diff then exists K, dims p' = [B; K] else dims p' = [B]) /\ dev p' = d /\ (forall i, ent p' i = ent p i).
Proof.
  unfold norm_rep, rep_ok. destruct diff; cbn [negb andb].
  - destruct (Nat.eqb (rank p) 2 && dt_eqb (dt p) DFloat)%bool eqn:E; [|discriminate]. cbn [negb].
    destruct (Nat.eqb (dim p 0) B) eqn:EB; [|discriminate]. destruct (Nat.eqb (dev p) d) eqn:Ed; [|discriminate].
    cbn [negb]. intros [= <-]. bsplit. split; [|split; [congruence|reflexivity]].
    exists (dim p 1). rewrite <- EB. apply rank2. now apply Nat.eqb_eq.
  - destruct ((Nat.eqb (rank p) 1 || Nat.eqb (rank p) 2) && dt_eqb (dt p) DInt)%bool eqn:E; [|discriminate]. cbn [negb].
    destruct (Nat.eqb (rank p) 2) eqn:E2; cbn [andb].
    + destruct (Nat.eqb (dim p 1) 1) eqn:E1; [|discriminate]. cbn [negb].
      change (dim (with_dims [dim p 0] p) 0) with (dim p 0). change (dev (with_dims [dim p 0] p)) with (dev p).
      destruct (Nat.eqb (dim p 0) B) eqn:EB; [|discriminate]. destruct (Nat.eqb (dev p) d) eqn:Ed; [|discriminate].
      cbn [negb]. intros [= <-]. bsplit. cbn. rewrite EB. auto.
    + destruct (Nat.eqb (dim p 0) B) eqn:EB; [|discriminate]. destruct (Nat.eqb (dev p) d) eqn:Ed; [|discriminate].
      cbn [negb]. intros [= <-]. bsplit. rewrite orb_false_r in H. rewrite (rank1 p H), EB. auto.
Qed.

Lemma norm_state_ok (c : tensor C) m (p : option (tensor P)) c' m' p' : norm_state diff c m p = Ok (c', m', p') ->
  c' = c /\ m' = m /\ chan_ok diff c = true /\ dims m = [dim c 0; dim c 1] /\ dt m = DBool /\ dev m = dev c /\
  match p with
  | None => p' = None
  | Some q => exists q', norm_rep diff (dim c 0) (dev c) q = Ok q' /\ p' = Some q'
  end.
Proof.
  unfold norm_state. destruct (chan_ok diff c) eqn:Ec; [|discriminate]. cbn [negb].
  destruct (mask_ok m) eqn:Em; [|discriminate]. cbn [negb].
  destruct (Nat.eqb (dim m 0) (dim c 0) && Nat.eqb (dim m 1) (dim c 1))%bool eqn:Ed; [|discriminate]. cbn [negb].
  destruct (Nat.eqb (dev c) (dev m)) eqn:Ev; [|discriminate]. cbn [negb]. unfold mask_ok in Em. bsplit.
  match goal with H : rank m = 2%nat |- _ => assert (Hm : dims m = [dim c 0; dim c 1]) by (rewrite (rank2 m) by (now apply Nat.eqb_eq); congruence) end.
  apply dt_eqb_eq in H1.
  destruct p as [q|].
  - destruct (norm_rep diff (dim c 0) (dev c) q) as [q'|] eqn:E; cbn [bind]; [|discriminate].
    intros [= <- <- <-]. repeat split; auto. now exists q'.
  - intros [= <- <- <-]. repeat split; auto.
Qed.

Lemma state_consistent (c : tensor C) m (p : tensor P) c' m' q d : norm_state diff c m (Some p) = Ok (c', m', Some q) ->
  consistent (mkObj c' m' q d).
Proof.
  intros H. apply norm_state_ok in H. destruct H as (-> & -> & Hc & Hm & Hd & Hv & q' & Hq & [= <-]).
  apply norm_rep_ok in Hq. destruct Hq as (Hq & Hqd & _).
  exists (dim c 0), (dim c 1). unfold consistent_at. cbn [o_ci o_mask o_rep].
  apply chan_ok_dims in Hc. destruct diff; auto 10.
Qed.
Lemma state_some (c : tensor C) m (p : tensor P) c' m' x : norm_state diff c m (Some p) = Ok (c', m', x) -> exists q, x = Some q.
Proof. intros H. apply norm_state_ok in H. destruct H as (_&_&_&_&_&_& q & _ & ->). now exists q. Qed.

Lemma consistent_device o d : consistent o -> consistent (mkObj (o_ci o) (o_mask o) (o_rep o) d).
Proof. intros (B & F & H). now exists B, F. Qed.

(** atomicity *)
Lemma update_atomic c m p (o o' : obj C P) : update diff c m p o = (false, o') -> o' = o.
Proof.
  unfold update. destruct (norm_state diff c m p) as [[[c' m'] p']|]; [destruct p'; discriminate|].
  intros [= <-]. reflexivity.
Qed.
Lemma run_atomic x (o o' : obj C P) : run c0 diff x o = (false, o') -> o' = o.
Proof.
  destruct x; cbn [run].
  - apply update_atomic.
  - unfold set_repetition_index, raise_. destruct p as [p|]; [|now intros [= <-]].
    destruct (norm_rep _ _ _ _); [discriminate|now intros [= <-]].
  - unfold broadcast_feature_width, raise_. destruct (Nat.eqb _ _); [discriminate|].
    destruct (_ && _)%bool; [|now intros [= <-]].
    destruct (expand n (o_ci o)), (expand n (o_mask o)); try (now intros [= <-]). apply update_atomic.
  - unfold repeat_split_feature_width, raise_. destruct (Nat.ltb splits 1); [now intros [= <-]|].
    destruct (Nat.eqb _ n); [discriminate|]. destruct (negb _); [now intros [= <-]|].
    destruct (negb _); [now intros [= <-]|]. apply update_atomic.
  - unfold scatter_split_groups, raise_. destruct (Nat.eqb _ n); [discriminate|]. destruct (negb _); [now intros [= <-]|].
    destruct (existsb _ gs); [now intros [= <-]|].
    destruct (put_groups (o_ci o) gs (zeros_like c0 n (o_ci o))), (put_groups (o_mask o) gs (zeros_like false n (o_mask o))); try (now intros [= <-]). apply update_atomic.
  - unfold update_channel_index_strict, set_channel_index, raise_.
    repeat (destruct (negb _); [now intros [= <-]|]). discriminate.
  - unfold set_channel_index, raise_. repeat (destruct (negb _); [now intros [= <-]|]). discriminate.
  - unfold set_mask, raise_. repeat (destruct (negb _); [now intros [= <-]|]). discriminate.
Qed.

Lemma update_consistent c m p (o o' : obj C P) b : p <> None -> consistent o -> update diff c m p o = (b, o') -> consistent o'.
Proof.
  intros Hp Ho H. destruct b; [|apply update_atomic in H; now subst].
  unfold update in H. destruct (norm_state diff c m p) as [[[c' m'] p']|] eqn:E; [|discriminate].
  destruct p as [p|]; [|congruence].
  destruct (state_some _ _ _ _ _ _ E) as [q ->]. injection H as <-. cbn. eapply state_consistent; eauto.
Qed.
(** update without repetition_index keeps the old one, whose batch size need not fit *)

Lemma set_channel_facts c (o o' : obj C P) : set_channel_index diff c o = (true, o') ->
  chan_ok diff c = true /\ dev c = dev (o_mask o) /\ dim c 0 = dim (o_mask o) 0 /\ dim c 0 = dim (o_rep o) 0 /\ dev c = dev (o_rep o) /\
  o' = mkObj c (o_mask o) (o_rep o) (Some (dev c)).
Proof.
  unfold set_channel_index, raise_. destruct (chan_ok diff c); [|discriminate]. cbn [negb].
  destruct (Nat.eqb (dev c) (dev (o_mask o))) eqn:E1; [|discriminate]. cbn [negb].
  destruct (Nat.eqb (dim c 0) (dim (o_mask o) 0)) eqn:E2; [|discriminate]. cbn [negb].
  destruct (Nat.eqb (dim c 0) (dim (o_rep o) 0)) eqn:E3; [|discriminate]. cbn [negb].
  destruct (Nat.eqb (dev c) (dev (o_rep o))) eqn:E4; [|discriminate]. cbn [negb]. bsplit.
  intros [= <-]. cbn. auto 10.
Qed.

Lemma init_num_consistent n d o : init_num c1 p1 diff n d = Ok o -> consistent o.
Proof.
  unfold init_num. destruct (norm_state _ _ _ _) as [[[c' m'] p']|] eqn:E; cbn [bind]; [|discriminate].
  destruct (state_some _ _ _ _ _ _ E) as [q ->]. intros [= <-]. eapply state_consistent; eauto.
Qed.
Lemma init_routing_consistent c m p d o : init_routing p1 diff c m p d = Ok o -> consistent o.
Proof.
  unfold init_routing. destruct (chan_ok diff c); [|discriminate]. cbn [negb].
  destruct (match d with Some d => _ | None => false end); [discriminate|].
  destruct (norm_state _ _ _ _) as [[[c' m'] p']|] eqn:E; cbn [bind]; [|discriminate].
  destruct (state_some _ _ _ _ _ _ E) as [q ->]. intros [= <-]. eapply state_consistent; eauto.
Qed.
Lemma with_routing_consistent c m (o o' : obj C P) : with_routing diff c m o = Ok o' -> consistent o'.
Proof.
  unfold with_routing. destruct (norm_state _ _ _ _) as [[[c' m'] p']|] eqn:E; cbn [bind]; [|discriminate].
  destruct (state_some _ _ _ _ _ _ E) as [q ->]. intros [= <-]. eapply state_consistent; eauto.
Qed.

Lemma set_rep_consistent p (o o' : obj C P) b : consistent o -> set_repetition_index diff p o = (b, o') -> consistent o'.
Proof.
  intros (B & F & Hc & Hm & Hr & Hd & Hv & Hv2). unfold set_repetition_index, raise_.
  destruct p as [p|]; [|intros [= <- <-]; exists B, F; repeat split; auto].
  destruct (norm_rep _ _ _ _) as [p'|] eqn:E; [|intros [= <- <-]; exists B, F; repeat split; auto].
  intros [= <- <-]. apply norm_rep_ok in E. destruct E as (E & Ev & _).
  assert (EB : dim (o_ci o) 0 = B) by (unfold dim; destruct diff; [destruct Hc as [K ->]|rewrite Hc]; reflexivity).
  rewrite EB in E. exists B, F. unfold consistent_at, put_rep. cbn. repeat split; auto. 
Qed.

Lemma run_consistent x (o o' : obj C P) b : consistent o -> safe_op x = true -> run c0 diff x o = (b, o') -> consistent o'.
Proof.
  intros Ho Hs H. destruct x; cbn [run] in H; try discriminate.
  - eapply update_consistent; eauto. destruct p; [discriminate|discriminate].
  - eapply set_rep_consistent; eauto.
  - unfold broadcast_feature_width, raise_ in H. destruct (Nat.eqb _ _); [now injection H as <- <-|].
    destruct (_ && _)%bool; [|now injection H as <- <-].
    destruct (expand n (o_ci o)), (expand n (o_mask o)); try (now injection H as <- <-).
    eapply update_consistent; eauto. discriminate.
  - unfold repeat_split_feature_width, raise_ in H. destruct (Nat.ltb splits 1); [now injection H as <- <-|].
    destruct (Nat.eqb _ n); [now injection H as <- <-|]. destruct (negb _); [now injection H as <- <-|].
    destruct (negb _); [now injection H as <- <-|]. eapply update_consistent; eauto. discriminate.
  - unfold scatter_split_groups, raise_ in H. destruct (Nat.eqb _ n); [now injection H as <- <-|]. destruct (negb _); [now injection H as <- <-|].
    destruct (existsb _ gs); [now injection H as <- <-|].
    destruct (put_groups (o_ci o) gs (zeros_like c0 n (o_ci o))), (put_groups (o_mask o) gs (zeros_like false n (o_mask o))); try (now injection H as <- <-).
    eapply update_consistent; eauto. discriminate.
  - unfold update_channel_index_strict, raise_ in H. destruct (chan_ok diff c) eqn:Ec; [|now injection H as <- <-]. cbn [negb] in H.
    destruct (Nat.eqb (dev c) (dev (o_mask o))); [|now injection H as <- <-]. cbn [negb] in H.
    destruct (Nat.eqb (dim c 0) (dim (o_mask o) 0)); [|now injection H as <- <-]. cbn [negb] in H.
    destruct (Nat.eqb (dim c 1) (dim (o_mask o) 1)) eqn:E1; [|now injection H as <- <-]. cbn [negb] in H.
    destruct b; [|apply (run_atomic (OpSetChannel c)) in H; now subst].
    apply set_channel_facts in H. destruct H as (_ & Hv & H0 & _ & Hv2 & ->). apply Nat.eqb_eq in E1.
    destruct Ho as (B & F & Hc & Hm & Hr & Hd & Hv3 & Hv4). exists B, F. unfold consistent_at. cbn [o_ci o_mask o_rep].
    assert (E0 : dim c 0 = B) by (rewrite H0; unfold dim; rewrite Hm; reflexivity).
    assert (E2 : dim c 1 = F) by (rewrite E1; unfold dim; rewrite Hm; reflexivity).
    apply chan_ok_dims in Ec. rewrite E0, E2 in Ec. repeat split; auto.
Qed.

Lemma reach_consistent o : reach c0 c1 p1 diff safe_op o -> consistent o.
Proof.
  induction 1 as [n d o H|c m p d o H|x o b o' _ IH Hx H|c m o o' _ IH H].
  - eapply init_num_consistent; eauto.
  - eapply init_routing_consistent; eauto.
  - eapply run_consistent; eauto.
  - eapply with_routing_consistent; eauto.
Qed.

(** batch sizes survive the setters *)
Lemma consistent_batch o : consistent o -> batch_consistent o.
Proof.
  intros (B & F & Hc & Hm & Hr & _). exists B. split; [|split].
  - destruct diff; [destruct Hc as [K ->]|rewrite Hc]; eexists; reflexivity.
  - rewrite Hm. eexists; reflexivity.
  - destruct diff; [destruct Hr as [K ->]|rewrite Hr]; eexists; reflexivity.
Qed.
Lemma update_batch c m p (o o' : obj C P) b : p <> None -> batch_consistent o -> update diff c m p o = (b, o') -> batch_consistent o'.
Proof.
  intros Hp Ho H. destruct b; [|apply update_atomic in H; now subst].
  unfold update in H. destruct (norm_state diff c m p) as [[[c' m'] p']|] eqn:E; [|discriminate].
  destruct p as [p|]; [|congruence].
  destruct (state_some _ _ _ _ _ _ E) as [q ->]. injection H as <-. apply consistent_batch. cbn. eapply state_consistent; eauto.
Qed.
Lemma dim0 {E} (t : tensor E) b l : dims t = b :: l -> dim t 0 = b.
Proof. unfold dim. now intros ->. Qed.
Lemma set_channel_batch c (o o' : obj C P) b : batch_consistent o -> set_channel_index diff c o = (b, o') -> batch_consistent o'.
Proof.
  intros Ho H. destruct b; [|apply (run_atomic (OpSetChannel c)) in H; now subst].
  apply set_channel_facts in H. destruct H as (Hc & _ & H0 & _ & _ & ->).
  destruct Ho as (B & _ & [lm Hm] & Hr). exists B. cbn. split; [|split; [eexists; eassumption|assumption]].
  rewrite (dim0 _ _ _ Hm) in H0. apply chan_ok_dims in Hc. rewrite H0 in Hc.
  destruct diff; [destruct Hc as [k Hc]|]; eexists; eassumption.
Qed.
Lemma run_batch x (o o' : obj C P) b : batch_consistent o -> rep_given x = true -> run c0 diff x o = (b, o') -> batch_consistent o'.
Proof.
  intros Ho Hs H. destruct x; cbn [run] in H.
  - eapply update_batch; eauto. destruct p; discriminate.
  - unfold set_repetition_index, raise_ in H. destruct p as [p|]; [|now injection H as <- <-].
    destruct (norm_rep _ _ _ _) as [p'|] eqn:E; injection H as <- <-; [|assumption].
    destruct Ho as (B & [lc Hc] & Hm & _). apply norm_rep_ok in E. destruct E as (E & _). rewrite (dim0 _ _ _ Hc) in E.
    exists B. cbn. split; [eexists; eassumption|split; [assumption|]].
    destruct diff; [destruct E as [K ->]|rewrite E]; eexists; reflexivity.
  - unfold broadcast_feature_width, raise_ in H. destruct (Nat.eqb _ _); [now injection H as <- <-|].
    destruct (_ && _)%bool; [|now injection H as <- <-].
    destruct (expand n (o_ci o)), (expand n (o_mask o)); try (now injection H as <- <-).
    eapply update_batch; eauto. discriminate.
  - unfold repeat_split_feature_width, raise_ in H. destruct (Nat.ltb splits 1); [now injection H as <- <-|].
    destruct (Nat.eqb _ n); [now injection H as <- <-|]. destruct (negb _); [now injection H as <- <-|].
    destruct (negb _); [now injection H as <- <-|]. eapply update_batch; eauto. discriminate.
  - unfold scatter_split_groups, raise_ in H. destruct (Nat.eqb _ n); [now injection H as <- <-|]. destruct (negb _); [now injection H as <- <-|].
    destruct (existsb _ gs); [now injection H as <- <-|].
    destruct (put_groups (o_ci o) gs (zeros_like c0 n (o_ci o))), (put_groups (o_mask o) gs (zeros_like false n (o_mask o))); try (now injection H as <- <-).
    eapply update_batch; eauto. discriminate.
  - unfold update_channel_index_strict, raise_ in H. repeat (destruct (negb _); [now injection H as <- <-|]).
    eapply set_channel_batch; eauto.
  - eapply set_channel_batch; eauto.
  - unfold set_mask, raise_ in H. destruct (mask_ok m) eqn:Em; [|now injection H as <- <-]. cbn [negb] in H.
    destruct (negb _); [now injection H as <- <-|]. destruct (Nat.eqb (dim m 0) (dim (o_ci o) 0)) eqn:E0; [|now injection H as <- <-].
    injection H as <- <-. destruct Ho as (B & [lc Hc] & _ & Hr). exists B. cbn. split; [eexists; eassumption|split; [|assumption]].
    unfold mask_ok in Em. bsplit. rewrite (rank2 m) by (now apply Nat.eqb_eq). rewrite E0, (dim0 _ _ _ Hc). eexists; reflexivity.
Qed.
Lemma reach_batch o : reach c0 c1 p1 diff rep_given o -> batch_consistent o.
Proof.
  induction 1 as [n d o H|c m p d o H|x o b o' _ IH Hx H|c m o o' _ IH H].
  - apply consistent_batch. eapply init_num_consistent; eauto.
  - apply consistent_batch. eapply init_routing_consistent; eauto.
  - eapply run_batch; eauto.
  - apply consistent_batch. eapply with_routing_consistent; eauto.
Qed.

(** validate_sampling_context rejects every inconsistent context *)
Lemma validate_consistent ns widths Rr (o : obj C P) :
  validate_shapes diff ns widths (Some Rr) o = true -> exists B F, consistent_at B F o /\ (widths <> [] -> In F widths) /\ (forall n, ns = Some n -> B = n).
Proof.
  unfold validate_shapes. intros H. repeat rewrite andb_true_iff in H.
  destruct H as [[[[[[Hc [[Hm2 Hm0] Hm1]] Hm] Hv] Hn] Hw] [[[[HR Hr] Hv2] Hk] HB]].
  apply Nat.eqb_eq in Hm0, Hm1, Hv, Hv2, HB. unfold mask_ok in Hm. apply andb_prop in Hm. destruct Hm as [Hdt _]. apply dt_eqb_eq in Hdt.
  apply rank2 in Hm2. rewrite Hm0, Hm1 in Hm2.
  assert (HB' : dim (o_rep o) 0 = dim (o_ci o) 0) by (destruct ns; [apply Nat.eqb_eq in Hn; congruence|assumption]).
  exists (dim (o_ci o) 0), (dim (o_ci o) 1). split; [|split].
  - unfold consistent_at. apply chan_ok_dims in Hc. unfold rep_ok in Hr.
    repeat split; auto; try congruence.
    destruct diff.
    + bsplit. exists (dim (o_rep o) 1). rewrite <- HB'. apply rank2. now apply Nat.eqb_eq.
    + apply rank1 in Hk. congruence.
  - destruct widths as [|w ws]; [congruence|]. intros _. apply existsb_exists in Hw. destruct Hw as (w' & Hw' & E).
    apply Nat.eqb_eq in E. now rewrite E.
  - intros n ->. now apply Nat.eqb_eq in Hn.
Qed.

(** contents *)
Lemma consistent_ci_dims B F (o : obj C P) : consistent_at B F o -> dim (o_ci o) 0 = B /\ dim (o_ci o) 1 = F /\ exists l, dims (o_ci o) = B :: F :: l.
Proof.
  intros (Hc & _). unfold dim. destruct diff; [destruct Hc as [K ->]|rewrite Hc]; repeat split; eexists; reflexivity.
Qed.
End S.

(** ** contents of the width adaptations *)
Section Content.
Context {C P : Type}.
Variables (c0 : C) (diff : bool).
Notation consistent_at := (@consistent_at C P diff).

Lemma norm_rep_id B F d (o : obj C P) : consistent_at B F o -> d = dev (o_ci o) -> rep_ok diff (o_rep o) = true -> norm_rep diff B d (o_rep o) = Ok (o_rep o).
Proof.
  intros (Hc & Hm & Hr & Hd & Hv & Hv2) -> Hok. unfold norm_rep. rewrite Hok. cbn [negb].
  unfold dim, rank. destruct diff; cbn [negb andb].
  - destruct Hr as [K ->]. cbn. rewrite Nat.eqb_refl, Hv2, Nat.eqb_refl. reflexivity.
  - rewrite Hr. cbn. rewrite Hr. cbn. rewrite Nat.eqb_refl, Hv2, Nat.eqb_refl. reflexivity.
Qed.

Lemma update_from B F (o : obj C P) w (c' : tensor C) (m' : tensor bool) : consistent_at B F o -> typed diff o ->
  dims c' = B :: w :: tl (tl (dims (o_ci o))) -> dt c' = dt (o_ci o) -> dev c' = dev (o_ci o) ->
  dims m' = [B; w] -> dt m' = DBool -> dev m' = dev (o_ci o) ->
  update diff c' m' (Some (o_rep o)) o = (true, mkObj c' m' (o_rep o) (o_device o)).
Proof.
  intros Ho [Tc Tr] Dc Tc' Vc Dm Tm Vm. unfold update, norm_state.
  assert (E1 : chan_ok diff c' = true).
  { unfold chan_ok in *. rewrite Tc'. pose proof Ho as (Hc & _). unfold rank in *. rewrite Dc.
    destruct diff; [destruct Hc as [K Hc]|]; rewrite Hc in *; exact Tc. }
  rewrite E1. cbn [negb].
  assert (E2 : mask_ok m' = true) by (unfold mask_ok, rank; rewrite Tm, Dm; reflexivity).
  rewrite E2. cbn [negb]. unfold dim. rewrite Dm, Dc. cbn [nth]. rewrite !Nat.eqb_refl. cbn [negb andb].
  rewrite Vc, Vm, Nat.eqb_refl. cbn [negb].
  rewrite (norm_rep_id B F) by auto. reflexivity.
Qed.

Lemma broadcast_content B F n one (o : obj C P) : consistent_at B F o -> typed diff o ->
  broadcast_feature_width diff n one o =
  if Nat.eqb F n then (true, o)
  else if (one && Nat.eqb F 1)%bool
       then (true, mkObj (mkTensor (B :: n :: tl (tl (dims (o_ci o)))) (dt (o_ci o)) (dev (o_ci o)) (fun b _ => ent (o_ci o) b 0%nat))
                         (mkTensor [B; n] (dt (o_mask o)) (dev (o_mask o)) (fun b _ => ent (o_mask o) b 0%nat))
                         (o_rep o) (o_device o))
       else (false, o).
Proof.
  intros Ho T. destruct (consistent_ci_dims _ _ _ _ Ho) as (E0 & E1 & l & El). unfold broadcast_feature_width. rewrite E1.
  destruct (Nat.eqb_spec F n) as [->|Hn]; [reflexivity|]. destruct (Nat.eqb_spec F 1) as [->|]; [|now rewrite andb_false_r].
  rewrite andb_true_r. destruct one; [|reflexivity].
  assert (Hm : dims (o_mask o) = [B; 1%nat]) by apply Ho.
  unfold expand. rewrite El, Hm. apply Nat.eqb_neq in Hn. rewrite Hn. cbn [Nat.eqb].
  rewrite (update_from B 1 o n); cbn; rewrite ?El; auto; apply Ho.
Qed.

Lemma repeat_content B F s n (o : obj C P) : consistent_at B F o -> typed diff o ->
  repeat_split_feature_width diff s n o =
  if Nat.ltb s 1 then (false, o) else if Nat.eqb F n then (true, o)
  else if Nat.eqb n (F * s)
       then (true, mkObj (mkTensor (B :: n :: tl (tl (dims (o_ci o)))) (dt (o_ci o)) (dev (o_ci o)) (fun b f => ent (o_ci o) b (f mod F)%nat))
                         (mkTensor [B; n] (dt (o_mask o)) (dev (o_mask o)) (fun b f => ent (o_mask o) b (f mod F)%nat))
                         (o_rep o) (o_device o))
       else (false, o).
Proof.
  intros Ho T. destruct (consistent_ci_dims _ _ _ _ Ho) as (E0 & E1 & l & El). unfold repeat_split_feature_width. rewrite E1.
  destruct (Nat.ltb_spec s 1) as [|Hs]; [reflexivity|]. destruct (Nat.eqb_spec F n) as [->|Hn]; [reflexivity|].
  destruct (Nat.eqb_spec n (F * s)) as [->|Hns].
  - rewrite Nat.mod_mul, Nat.div_mul by lia. rewrite !Nat.eqb_refl. cbn [negb].
    assert (Hm : dims (o_mask o) = [B; F]) by apply Ho. unfold repeat_cols. rewrite El, Hm. cbn [tl].
    rewrite (update_from B F o (F * s)); cbn; rewrite ?El; auto; apply Ho.
  - destruct (Nat.eqb_spec (n mod s) 0) as [Hm|]; [|reflexivity]. cbn [negb].
    destruct (Nat.eqb_spec F (n / s)) as [He|]; [|reflexivity]. exfalso. apply Hns.
    pose proof (Nat.div_mod n s ltac:(lia)). rewrite He. rewrite Hm in H. lia.
Qed.

(** scatter *)
Lemma insert_perm x l : Permutation (x :: l) (insert x l).
Proof.
  induction l as [|y l IH]; [reflexivity|]. cbn. destruct (Z.leb x y); [reflexivity|].
  rewrite <- IH. apply perm_swap.
Qed.
Lemma isort_perm l : Permutation l (isort l).
Proof. induction l as [|x l IH]; [reflexivity|]. cbn. rewrite <- insert_perm. now constructor. Qed.
Lemma zlist_eqb_eq a b : zlist_eqb a b = true -> a = b.
Proof.
  revert b. induction a as [|x a IH]; intros [|y b]; try discriminate; [reflexivity|].
  cbn. intros [H1 H2]%andb_prop. apply Z.eqb_eq in H1. f_equal; auto.
Qed.
Lemma zrange_nodup n : NoDup (zrange n).
Proof. apply Injective_map_NoDup; [intros a b; lia|apply seq_NoDup]. Qed.
Lemma partition_perm gs n : zlist_eqb (isort (concat gs)) (zrange n) = true -> Permutation (concat gs) (zrange n).
Proof. intros H%zlist_eqb_eq. rewrite <- H. apply isort_perm. Qed.

Lemma index_of_nth g k : NoDup g -> (k < length g)%nat -> index_of (nth k g 0%Z) g = Some k.
Proof.
  revert k. induction g as [|x g IH]; intros k ND Hk; [cbn in Hk; lia|].
  inversion ND as [|? ? Hx ND']; subst. destruct k as [|k]; cbn [nth index_of].
  - assert (index_of x g = None) as ->.
    { clear -Hx. induction g as [|y g IH]; [reflexivity|]. cbn. rewrite IH by (intros H; apply Hx; now right).
      destruct (Z.eqb_spec y x); [exfalso; apply Hx; now left|reflexivity]. }
    now rewrite Z.eqb_refl.
  - cbn in Hk. rewrite IH by (auto; lia). reflexivity.
Qed.
Lemma index_of_some v g k : index_of v g = Some k -> (k < length g)%nat /\ nth k g 0%Z = v.
Proof.
  revert k. induction g as [|x g IH]; intros k H; [discriminate|]. cbn in H.
  destruct (index_of v g) as [j|].
  - injection H as <-. destruct (IH j eq_refl). cbn. split; [lia|assumption].
  - destruct (Z.eqb_spec x v); [|discriminate]. injection H as <-. cbn. split; [lia|assumption].
Qed.

Lemma nodup_app {A} (a b : list A) : NoDup (a ++ b) -> NoDup a /\ NoDup b /\ forall x, In x a -> ~ In x b.
Proof.
  induction a as [|x a IH]; cbn; intros H; [split; [constructor|]; split; [assumption|intros ? []]|].
  inversion H as [|? ? Hx H']; subst. destruct (IH H') as (H1 & H2 & H3). split; [|split; [assumption|]].
  - constructor; [|assumption]. intros Hin. apply Hx, in_or_app. now left.
  - intros y [->|Hy]; [|auto]. intros Hin. apply Hx, in_or_app. now right.
Qed.
Lemma put_groups_spec {E} (src out : tensor E) gs w : dim src 1 = w -> Forall (fun g => length g = w) gs ->
  exists t, put_groups src gs out = Ok t /\ dims t = dims out /\ dt t = dt out /\ dev t = dev out /\
  (forall b j, ~ In (Z.of_nat j) (concat gs) -> ent t b j = ent out b j) /\
  (NoDup (concat gs) -> forall i k b j, (i < length gs)%nat -> (k < w)%nat -> nth k (nth i gs []) 0%Z = Z.of_nat j -> ent t b j = ent src b k).
Proof.
  intros Hw. revert out. induction gs as [|g gs IH]; intros out Hg.
  - exists out. cbn. repeat split; auto. intros; lia.
  - pose proof (Forall_inv Hg) as Hl. pose proof (Forall_inv_tail Hg) as Hg'. cbn beta in Hl. cbn [put_groups]. unfold put_cols. rewrite Hw, Hl, Nat.eqb_refl. cbn [orb bind].
    set (out1 := mkTensor _ _ _ _). destruct (IH out1 Hg') as (t & Et & D1 & D2 & D3 & Hno & Hyes).
    exists t. split; [exact Et|]. rewrite D1, D2, D3. repeat split; auto.
    + intros b j Hj. rewrite Hno by (intros H; apply Hj; cbn; apply in_or_app; now right). cbn.
      destruct (index_of (Z.of_nat j) g) as [k|] eqn:E1; [|reflexivity]. exfalso. apply index_of_some in E1. destruct E1 as [Hk E1].
      apply Hj. cbn. apply in_or_app. left. rewrite <- E1. now apply nth_In.
    + intros ND i k b j Hi Hk Hj. cbn in ND.
      destruct (nodup_app _ _ ND) as (NDg & NDr & NDx).
      destruct i as [|i]; cbn in Hj.
      * rewrite Hno.
        -- cbn. rewrite <- Hj, index_of_nth by (auto; lia). destruct (Nat.eqb_spec w 1); [|reflexivity]. f_equal. lia.
        -- rewrite <- Hj. apply NDx, nth_In. lia.
      * cbn in Hi. apply (Hyes NDr i k b j); auto. lia.
Qed.


(** sorting *)
Lemma insert_sorted x l : StronglySorted Z.le l -> StronglySorted Z.le (insert x l).
Proof.
  induction 1 as [|y l H IH Hy]; [repeat constructor|]. cbn. destruct (Z.leb_spec x y).
  - constructor; [constructor; assumption|]. constructor; [assumption|]. eapply Forall_impl; [|exact Hy]. intros; lia.
  - constructor; [assumption|]. rewrite <- insert_perm. constructor; [lia|assumption].
Qed.
Lemma isort_sorted l : StronglySorted Z.le (isort l).
Proof. induction l as [|x l IH]; [constructor|]. cbn. now apply insert_sorted. Qed.
Lemma zrange_sorted n : StronglySorted Z.le (zrange n).
Proof.
  unfold zrange. generalize 0%nat. induction n as [|n IH]; intros s; [constructor|]. cbn. constructor; [apply IH|].
  apply Forall_forall. intros z Hz. apply in_map_iff in Hz. destruct Hz as (k & <- & Hk). apply in_seq in Hk. lia.
Qed.
Lemma sorted_unique a b : StronglySorted Z.le a -> StronglySorted Z.le b -> Permutation a b -> a = b.
Proof.
  intros Ha. revert b. induction Ha as [|x a Ha IH Hx]; intros b Hb HP.
  - now apply Permutation_nil in HP.
  - destruct b as [|y b]; [apply Permutation_sym, Permutation_nil in HP; discriminate|].
    inversion Hb as [|? ? Hb' Hy]; subst.
    assert (x = y) as ->.
    { rewrite Forall_forall in Hx, Hy.
      assert (In y (x :: a)) as [->|H1] by (eapply Permutation_in; [symmetry; exact HP|now left]); [reflexivity|].
      assert (In x (y :: b)) as [->|H2] by (eapply Permutation_in; [exact HP|now left]); [reflexivity|].
      specialize (Hx _ H1). specialize (Hy _ H2). lia. }
    f_equal. apply IH; auto. now apply Permutation_cons_inv in HP.
Qed.
Lemma zlist_eqb_refl a : zlist_eqb a a = true.
Proof. induction a as [|x a IH]; [reflexivity|]. cbn. now rewrite Z.eqb_refl, IH. Qed.

Lemma scatter_content B F gs n (o : obj C P) : consistent_at B F o -> typed diff o -> F <> n ->
  (fst (scatter_split_groups c0 diff gs n o) = true <->
   Permutation (concat gs) (zrange n) /\ Forall (fun g => length g = F) gs) /\
  forall o', scatter_split_groups c0 diff gs n o = (true, o') ->
    dims (o_mask o') = [B; n] /\ dims (o_ci o') = B :: n :: tl (tl (dims (o_ci o))) /\ o_rep o' = o_rep o /\
    forall i k b j, (i < length gs)%nat -> (k < F)%nat -> nth k (nth i gs []) 0%Z = Z.of_nat j ->
      ent (o_ci o') b j = ent (o_ci o) b k /\ ent (o_mask o') b j = ent (o_mask o) b k.
Proof.
  intros Ho T Hn. destruct (consistent_ci_dims _ _ _ _ Ho) as (E0 & E1 & l & El).
  assert (Hm : dims (o_mask o) = [B; F]) by apply Ho.
  unfold scatter_split_groups. rewrite E1. apply Nat.eqb_neq in Hn. rewrite Hn.
  destruct (zlist_eqb (isort (concat gs)) (zrange n)) eqn:EP; cbn [negb].
  2:{ split; [|intros; discriminate]. split; [discriminate|]. intros [HP _]. exfalso.
      assert (isort (concat gs) = zrange n) as Hs.
      { apply (sorted_unique (isort (concat gs)) (zrange n)); [apply isort_sorted|apply zrange_sorted|].
        rewrite <- isort_perm. exact HP. }
      rewrite Hs in EP. now rewrite zlist_eqb_refl in EP. }
  destruct (existsb (fun g => negb (Nat.eqb (length g) F)) gs) eqn:EX.
  { split; [|intros; discriminate]. split; [discriminate|]. intros [_ HF]. exfalso.
    apply existsb_exists in EX. destruct EX as (g & Hg & Hb). rewrite Forall_forall in HF. rewrite (HF g Hg), Nat.eqb_refl in Hb. discriminate. }
  assert (HF : Forall (fun g => length g = F) gs).
  { apply Forall_forall. intros g Hg. destruct (Nat.eqb_spec (length g) F) as [|Hne]; [assumption|]. exfalso.
    assert (existsb (fun g => negb (Nat.eqb (length g) F)) gs = true); [|congruence].
    apply existsb_exists. exists g. split; [assumption|]. apply Nat.eqb_neq in Hne. now rewrite Hne. }
  pose proof (partition_perm gs n EP) as HP.
  assert (ND : NoDup (concat gs)) by (eapply Permutation_NoDup; [symmetry; exact HP|apply zrange_nodup]).
  destruct (put_groups_spec (o_ci o) (zeros_like c0 n (o_ci o)) gs F E1 HF) as (tc & -> & Dc & Tc & Vc & _ & Yc).
  assert (E1m : dim (o_mask o) 1 = F) by (unfold dim; now rewrite Hm).
  destruct (put_groups_spec (o_mask o) (zeros_like false n (o_mask o)) gs F E1m HF) as (tm & -> & Dm & Tm & Vm & _ & Ym).
  unfold zeros_like in *. rewrite El in Dc, Tc, Vc. rewrite Hm in Dm, Tm, Vm. cbn in *.
  rewrite (update_from B F o n); auto; try (rewrite El; cbn; assumption); try (rewrite Tm; apply Ho); try (rewrite Vm; apply Ho).
  cbn [fst]. split; [split; auto|].
  intros o' [= <-]. cbn [o_mask o_ci o_rep]. rewrite El. cbn [tl]. split; [assumption|]. split; [assumption|]. split; [reflexivity|].
  intros i k b j Hi Hk Hj. split; [eapply Yc|eapply Ym]; eauto.
Qed.

(** adjacent slices: entry [j] of the slice [a, b) is entry [a + j] *)
Lemma slice_content B F (o : obj C P) rs l : consistent_at B F o -> slice_feature_ranges rs o = Ok l ->
  length l = length rs /\ forall i a b, nth_error rs i = Some (a, b) -> (0 <= a <= b)%Z /\ (b <= Z.of_nat F)%Z /\
    exists c m, nth_error l i = Some (c, m) /\ dims m = [B; Z.to_nat (b - a)] /\
      forall r j, ent c r j = ent (o_ci o) r (Z.to_nat a + j)%nat /\ ent m r j = ent (o_mask o) r (Z.to_nat a + j)%nat.
Proof.
  intros Ho. destruct (consistent_ci_dims _ _ _ _ Ho) as (E0 & E1 & q & El).
  assert (Hm : dims (o_mask o) = [B; F]) by apply Ho.
  revert l. induction rs as [|[a b] rs IH]; intros l H; cbn [slice_feature_ranges] in H.
  - injection H as <-. split; [reflexivity|]. intros [|i]; discriminate.
  - rewrite E1 in H. destruct ((a <? 0)%Z || (b <? a)%Z || (Z.of_nat F <? b)%Z)%bool eqn:EB; [discriminate|].
    destruct (slice_feature_ranges rs o) as [l'|]; cbn [bind] in H; [|discriminate]. injection H as <-.
    destruct (IH l' eq_refl) as [HL IH']. split; [cbn; lia|].
    apply orb_false_iff in EB. destruct EB as [EB E3]. apply orb_false_iff in EB. destruct EB as [E4 E5].
    apply Z.ltb_ge in E3, E4, E5.
    intros [|i] a' b' Hn; cbn in Hn.
    + injection Hn as <- <-. split; [lia|]. split; [lia|]. eexists _, _. split; [reflexivity|].
      unfold slice_cols. rewrite El, Hm. cbn. split; [repeat f_equal; lia|]. intros; split; reflexivity.
    + apply IH'. exact Hn.
Qed.
End Content.

(** ** dtypes are invariant *)
Section Typed.
Context {C P : Type}.
Variables (c0 c1 : C) (p1 : P) (diff : bool).
Lemma norm_rep_typed B d (p p' : tensor P) : norm_rep diff B d p = Ok p' -> rep_ok diff p' = true.
Proof.
  unfold norm_rep. destruct (rep_ok diff p) eqn:E; [|discriminate]. cbn [negb].
  destruct (negb diff && Nat.eqb (rank p) 2 && negb (Nat.eqb (dim p 1) 1))%bool; [discriminate|].
  destruct (negb diff && Nat.eqb (rank p) 2)%bool eqn:E2; cbn zeta.
  - change (dim (with_dims [dim p 0] p) 0) with (dim p 0). change (dev (with_dims [dim p 0] p)) with (dev p).
    destruct (Nat.eqb (dim p 0) B); [|discriminate]. destruct (Nat.eqb (dev p) d); [|discriminate]. intros [= <-].
    apply andb_prop in E2. destruct E2 as [E2 _]. apply negb_true_iff in E2. unfold rep_ok in *. rewrite E2 in *. cbn.
    apply andb_prop in E. tauto.
  - destruct (Nat.eqb (dim p 0) B); [|discriminate]. destruct (Nat.eqb (dev p) d); [|discriminate]. intros [= <-]. exact E.
Qed.
Lemma state_typed (c : tensor C) m (p : tensor P) c' m' q d : norm_state diff c m (Some p) = Ok (c', m', Some q) -> typed diff (mkObj c' m' q d).
Proof.
  intros H. apply norm_state_ok in H. destruct H as (-> & -> & Hc & _ & _ & _ & q' & Hq & [= ->]).
  split; [exact Hc|eapply norm_rep_typed; eauto].
Qed.
Lemma update_typed c m p (o o' : obj C P) b : p <> None -> typed diff o -> update diff c m p o = (b, o') -> typed diff o'.
Proof.
  intros Hp Ho H. destruct b; [|apply update_atomic in H; now subst].
  unfold update in H. destruct (norm_state diff c m p) as [[[c' m'] p']|] eqn:E; [|discriminate].
  destruct p as [p|]; [|congruence].
  destruct (state_some _ _ _ _ _ _ _ E) as [q ->]. injection H as <-. cbn. eapply state_typed; eauto.
Qed.
Lemma set_channel_typed c (o o' : obj C P) b : typed diff o -> set_channel_index diff c o = (b, o') -> typed diff o'.
Proof.
  intros [Hc Hr] H. destruct b; [|apply (run_atomic c0 diff (OpSetChannel c)) in H; now subst].
  apply set_channel_facts in H. destruct H as (Hc' & _ & _ & _ & _ & ->). split; assumption.
Qed.
Lemma run_typed x (o o' : obj C P) b : typed diff o -> rep_given x = true -> run c0 diff x o = (b, o') -> typed diff o'.
Proof.
  intros Ho Hs H. destruct x; cbn [run] in H.
  - eapply update_typed; eauto. destruct p; discriminate.
  - unfold set_repetition_index, raise_ in H. destruct p as [p|]; [|now injection H as <- <-].
    destruct (norm_rep _ _ _ _) as [p'|] eqn:E; injection H as <- <-; [|assumption].
    split; [apply Ho|eapply norm_rep_typed; eauto].
  - unfold broadcast_feature_width, raise_ in H. destruct (Nat.eqb _ _); [now injection H as <- <-|].
    destruct (_ && _)%bool; [|now injection H as <- <-].
    destruct (expand n (o_ci o)), (expand n (o_mask o)); try (now injection H as <- <-).
    eapply update_typed; eauto. discriminate.
  - unfold repeat_split_feature_width, raise_ in H. destruct (Nat.ltb splits 1); [now injection H as <- <-|].
    destruct (Nat.eqb _ n); [now injection H as <- <-|]. destruct (negb _); [now injection H as <- <-|].
    destruct (negb _); [now injection H as <- <-|]. eapply update_typed; eauto. discriminate.
  - unfold scatter_split_groups, raise_ in H. destruct (Nat.eqb _ n); [now injection H as <- <-|]. destruct (negb _); [now injection H as <- <-|].
    destruct (existsb _ gs); [now injection H as <- <-|].
    destruct (put_groups (o_ci o) gs (zeros_like c0 n (o_ci o))), (put_groups (o_mask o) gs (zeros_like false n (o_mask o))); try (now injection H as <- <-).
    eapply update_typed; eauto. discriminate.
  - unfold update_channel_index_strict, raise_ in H. repeat (destruct (negb _); [now injection H as <- <-|]).
    eapply set_channel_typed; eauto.
  - eapply set_channel_typed; eauto.
  - unfold set_mask, raise_ in H. repeat (destruct (negb _); [now injection H as <- <-|]). injection H as <- <-. exact Ho.
Qed.
Lemma safe_rep_given (x : op C P) : safe_op x = true -> rep_given x = true.
Proof. destruct x as [? ? []| | | | | | |]; cbn; auto. Qed.
Lemma reach_typed o : reach c0 c1 p1 diff safe_op o -> typed diff o.
Proof.
  induction 1 as [n d o H|c m p d o H|x o b o' _ IH Hx H|c m o o' _ IH H].
  - unfold init_num in H. destruct (norm_state _ _ _ _) as [[[c' m'] p']|] eqn:E; cbn [bind] in H; [|discriminate].
    destruct (state_some _ _ _ _ _ _ _ E) as [q ->]. injection H as <-. eapply state_typed; eauto.
  - unfold init_routing in H. destruct (chan_ok diff c); [|discriminate]. cbn [negb] in H.
    destruct (match d with Some d => _ | None => false end); [discriminate|].
    destruct (norm_state _ _ _ _) as [[[c' m'] p']|] eqn:E; cbn [bind] in H; [|discriminate].
    destruct (state_some _ _ _ _ _ _ _ E) as [q ->]. injection H as <-. eapply state_typed; eauto.
  - eapply run_typed; eauto. now apply safe_rep_given.
  - unfold with_routing in H. destruct (norm_state _ _ _ _) as [[[c' m'] p']|] eqn:E; cbn [bind] in H; [|discriminate].
    destruct (state_some _ _ _ _ _ _ _ E) as [q ->]. injection H as <-. eapply state_typed; eauto.
Qed.
End Typed.

(** ** routing *)
Lemma offsets_length off counts : length (offsets off counts) = length counts.
Proof. revert off. induction counts; intros; cbn; auto. Qed.
Lemma offsets_nth counts : forall off k, (k < length counts)%nat ->
  nth k (offsets off counts) (0%Z, 0%Z) = ((off + zsum (firstn k counts))%Z, (off + zsum (firstn k counts) + nth k counts 0%Z)%Z).
Proof.
  induction counts as [|n counts IH]; intros off k Hk; [cbn in Hk; lia|].
  destruct k as [|k]; cbn [offsets nth firstn zsum fold_right]; [f_equal; lia|].
  cbn in Hk. rewrite IH by lia. unfold zsum. f_equal; lia.
Qed.
Lemma find_child counts : Forall (fun n => (1 <= n)%Z) counts -> forall c, (0 <= c < zsum counts)%Z ->
  exists k, (k < length counts)%nat /\ (zsum (firstn k counts) <= c < zsum (firstn k counts) + nth k counts 0)%Z.
Proof.
  induction 1 as [|n counts Hn H IH]; intros c Hc; [cbn in Hc; lia|]. cbn in Hc.
  destruct (Z.ltb_spec c n).
  - exists 0%nat. cbn. lia.
  - destruct (IH (c - n)%Z) as (k & Hk & Hr); [unfold zsum; lia|]. exists (S k). cbn. unfold zsum in *. lia.
Qed.
Lemma prefix_mono counts : Forall (fun n => (1 <= n)%Z) counts -> forall i j, (i < j)%nat -> (j < length counts)%nat ->
  (zsum (firstn i counts) + nth i counts 0 <= zsum (firstn j counts))%Z.
Proof.
  induction 1 as [|n counts Hn H IH]; intros i j Hij Hj; [cbn in Hj; lia|].
  destruct j as [|j]; [lia|]. cbn in Hj. destruct i as [|i]; cbn [firstn nth zsum fold_right].
  - assert (0 <= fold_right Z.add 0 (firstn j counts))%Z; [|lia].
    clear -H. revert j. induction H as [|m l Hm _ IH']; intros [|j]; cbn; try lia. specialize (IH' j). lia.
  - assert (Hij' : (i < j)%nat) by lia. specialize (IH i j Hij' ltac:(lia)). unfold zsum in IH. lia.
Qed.

Lemma any_active_spec B F mask bad : any_active B F mask bad = true <-> exists b f, (b < B)%nat /\ (f < F)%nat /\ mask b f = true /\ bad b f = true.
Proof.
  unfold any_active. rewrite existsb_exists. split.
  - intros (b & Hb & H). apply existsb_exists in H. destruct H as (f & Hf & H). apply andb_prop in H.
    apply in_seq in Hb, Hf. exists b, f. repeat split; try lia; tauto.
  - intros (b & f & Hb & Hf & H1 & H2). exists b. split; [apply in_seq; lia|]. apply existsb_exists.
    exists f. split; [apply in_seq; lia|]. now rewrite H1, H2.
Qed.

Definition no_route : (nat -> nat -> Z) * (nat -> nat -> bool) := ((fun _ _ => 0%Z), (fun _ _ => false)).

Lemma route_int_accepts counts B F ci mask : (exists l, route_int counts B F ci mask = Ok l) <->
  Forall (fun n => (1 <= n)%Z) counts /\ forall b f, (b < B)%nat -> (f < F)%nat -> mask b f = true -> (0 <= ci b f < zsum counts)%Z.
Proof.
  unfold route_int. destruct (existsb (fun n => (n <? 1)%Z) counts) eqn:E1.
  - split; [intros [l HH]; discriminate HH|]. intros [H _]. exfalso. apply existsb_exists in E1. destruct E1 as (n & Hn & Hb).
    rewrite Forall_forall in H. specialize (H n Hn). apply Z.ltb_lt in Hb. lia.
  - assert (HF : Forall (fun n => (1 <= n)%Z) counts).
    { apply Forall_forall. intros n Hn. destruct (Z.ltb_spec n 1); [|lia]. exfalso.
      assert (existsb (fun n => (n <? 1)%Z) counts = true); [|congruence]. apply existsb_exists. exists n. split; [assumption|]. now apply Z.ltb_lt. }
    destruct (any_active _ _ _ _) eqn:E2.
    + split; [intros [l HH]; discriminate HH|]. intros [_ H]. exfalso. apply any_active_spec in E2. destruct E2 as (b & f & Hb & Hf & Hm & Hbad).
      specialize (H b f Hb Hf Hm). apply orb_prop in Hbad. destruct Hbad as [Hx|Hx]; [apply Z.ltb_lt in Hx|apply Z.leb_le in Hx]; lia.
    + split; [|intros _; eexists; reflexivity]. intros _. split; [assumption|]. intros b f Hb Hf Hm.
      destruct (Z.ltb_spec (ci b f) 0) as [Hx|Hx]; [|destruct (Z.leb_spec (zsum counts) (ci b f)) as [Hy|Hy]; [|lia]]; exfalso.
      * assert (any_active B F mask (fun b f => (ci b f <? 0)%Z || (zsum counts <=? ci b f)%Z) = true); [|congruence].
        apply any_active_spec. exists b, f. repeat split; auto. apply Z.ltb_lt in Hx. now rewrite Hx.
      * assert (any_active B F mask (fun b f => (ci b f <? 0)%Z || (zsum counts <=? ci b f)%Z) = true); [|congruence].
        apply any_active_spec. exists b, f. repeat split; auto. apply Z.leb_le in Hy. rewrite Hy. apply orb_true_r.
Qed.

Lemma route_int_spec counts B F ci mask outs : route_int counts B F ci mask = Ok outs ->
  length outs = length counts /\ forall b f, (b < B)%nat -> (f < F)%nat ->
  (forall k, (k < length counts)%nat -> (0 <= fst (nth k outs no_route) b f < nth k counts 0)%Z) /\
  (mask b f = false -> forall k, (k < length counts)%nat -> snd (nth k outs no_route) b f = false) /\
  (mask b f = true -> exists k, (k < length counts)%nat /\ snd (nth k outs no_route) b f = true /\
     fst (nth k outs no_route) b f = (ci b f - zsum (firstn k counts))%Z /\
     forall j, (j < length counts)%nat -> snd (nth j outs no_route) b f = true -> j = k).
Proof.
  intros H. assert (A : exists l, route_int counts B F ci mask = Ok l) by (eexists; exact H).
  apply route_int_accepts in A. destruct A as [HF Hact].
  unfold route_int in H. destruct (existsb _ counts); [discriminate|]. destruct (any_active _ _ _ _); [discriminate|].
  injection H as <-. rewrite map_length, offsets_length. split; [reflexivity|]. intros b f Hb Hf.
  assert (EN : forall k, (k < length counts)%nat -> nth k (map (fun se : Z * Z =>
         let inr b f := ((fst se <=? ci b f)%Z && (ci b f <? snd se)%Z)%bool in
         ((fun b f => if inr b f then (ci b f - fst se)%Z else 0%Z), (fun b f => inr b f && mask b f)%bool))
       (offsets 0 counts)) no_route =
     let s := zsum (firstn k counts) in let e := (s + nth k counts 0)%Z in
     let inr b f := ((s <=? ci b f)%Z && (ci b f <? e)%Z)%bool in
         ((fun b f => if inr b f then (ci b f - s)%Z else 0%Z), (fun b f => inr b f && mask b f)%bool)).
  { intros k Hk. match goal with |- nth k (map ?g0 (offsets 0 counts)) _ = _ => set (g := g0) end.
    rewrite (nth_indep (map g (offsets 0 counts)) no_route (g (0%Z, 0%Z))) by (rewrite map_length, offsets_length; exact Hk).
    rewrite map_nth, offsets_nth by exact Hk. reflexivity. }
  assert (Hpos : forall k, (k < length counts)%nat -> (1 <= nth k counts 0)%Z).
  { intros k Hk. rewrite Forall_forall in HF. apply HF. now apply nth_In. }
  split; [|split].
  - intros k Hk. rewrite EN by exact Hk. cbn zeta. cbn [fst].
    destruct (Z.leb_spec (zsum (firstn k counts)) (ci b f)); destruct (Z.ltb_spec (ci b f) (zsum (firstn k counts) + nth k counts 0%Z)); cbn [andb];
      specialize (Hpos k Hk); lia.
  - intros Hm k Hk. rewrite EN by exact Hk. cbn. rewrite Hm. apply andb_false_r.
  - intros Hm. destruct (find_child counts HF (ci b f) (Hact b f Hb Hf Hm)) as (k & Hk & Hr).
    exists k. split; [exact Hk|]. rewrite EN by exact Hk. cbn zeta. cbn [fst snd].
    destruct (Z.leb_spec (zsum (firstn k counts)) (ci b f)); [|lia].
    destruct (Z.ltb_spec (ci b f) (zsum (firstn k counts) + nth k counts 0%Z)); [|lia]. cbn [andb].
    split; [exact Hm|]. split; [reflexivity|].
    intros j Hj. rewrite EN by exact Hj. cbn zeta. cbn [snd]. rewrite Hm, andb_true_r. intros HH. apply andb_prop in HH.
    destruct HH as [H1 H2]. apply Z.leb_le in H1. apply Z.ltb_lt in H2.
    destruct (Nat.lt_trichotomy j k) as [Hjk|[->|Hjk]]; [|reflexivity|]; exfalso.
    + pose proof (prefix_mono counts HF j k Hjk Hk). lia.
    + pose proof (prefix_mono counts HF k j Hjk Hj). lia.
Qed.

Local Open Scope R_scope.
(** one-hot routing *)
Lemma bsum_one_hot n i (g : nat -> R) : (i < n)%nat -> bsum n (fun k => one_hot i k * g k) = g i.
Proof.
  intros H. unfold one_hot. rewrite (bsum_single n (fun k => (if Nat.eqb k i then 1 else 0) * g k) i); [rewrite Nat.eqb_refl; ring|assumption|].
  intros k Hk Hne. apply Nat.eqb_neq in Hne. rewrite Hne. ring.
Qed.

Definition no_soft : (nat -> nat -> nat -> R) * (nat -> nat -> bool) := ((fun _ _ _ => 0), (fun _ _ => false)).
Definition nsum_ (l : list nat) : nat := fold_right Nat.add 0%nat l.

Lemma route_soft_nth eps counts K w mask outs : route_soft eps counts K w mask = Ok outs ->
  length outs = length counts /\ nsum_ counts = K /\ Forall (fun n => (1 <= n)%nat) counts /\
  forall k, (k < length counts)%nat ->
    let off := nsum_ (firstn k counts) in let n := nth k counts 0%nat in
    let mass b f := bsum n (fun j => w b f (off + j)%nat) in
    (forall b f j, fst (nth k outs no_soft) b f j = if Rlt_dec 0 (mass b f) then w b f (off + j)%nat / Rmax (mass b f) eps else 0) /\
    (forall b f, snd (nth k outs no_soft) b f = ((if Rlt_dec 0 (mass b f) then true else false) && mask b f)%bool).
Proof.
  unfold route_soft. destruct (existsb _ counts) eqn:E1; [discriminate|].
  destruct (Nat.eqb_spec K (fold_right Nat.add 0%nat counts)) as [->|]; [|discriminate]. cbn [negb].
  intros [= <-].
  assert (HF : Forall (fun n => (1 <= n)%nat) counts).
  { apply Forall_forall. intros n Hn. destruct (Nat.ltb_spec n 1); [|lia]. exfalso.
    assert (existsb (fun n => Nat.ltb n 1) counts = true); [|congruence]. apply existsb_exists. exists n. split; [assumption|]. now apply Nat.ltb_lt. }
  match goal with |- context [length (?g0 0%nat counts)] => set (go := g0) end.
  assert (G : forall l off, length (go off l) = length l /\ forall k, (k < length l)%nat ->
    let o := (off + nsum_ (firstn k l))%nat in let n := nth k l 0%nat in
    let mass b f := bsum n (fun j => w b f (o + j)%nat) in
    (forall b f j, fst (nth k (go off l) no_soft) b f j = if Rlt_dec 0 (mass b f) then w b f (o + j)%nat / Rmax (mass b f) eps else 0) /\
    (forall b f, snd (nth k (go off l) no_soft) b f = ((if Rlt_dec 0 (mass b f) then true else false) && mask b f)%bool)).
  { induction l as [|n l IH]; intros off; [split; [reflexivity|intros k Hk; cbn in Hk; lia]|].
    destruct (IH (off + n)%nat) as [HL IH']. split; [cbn [go length]; now rewrite HL|].
    intros [|k] Hk.
    - cbn [go nth firstn nsum_ fold_right fst snd]. rewrite Nat.add_0_r. split; intros; reflexivity.
    - cbn [go nth firstn]. cbn in Hk. specialize (IH' k ltac:(lia)). cbn zeta in IH' |- *.
      replace (off + nsum_ (n :: firstn k l))%nat with (off + n + nsum_ (firstn k l))%nat by (cbn; unfold nsum_; lia). exact IH'. }
  destruct (G counts 0%nat) as [GL GN]. split; [exact GL|]. split; [reflexivity|]. split; [exact HF|].
  intros k Hk. apply (GN k Hk).
Qed.

Lemma nth_le_sum (l : list nat) k : (k < length l)%nat -> (nsum_ (firstn k l) + nth k l 0 <= nsum_ l)%nat.
Proof.
  revert k. induction l as [|n l IH]; intros k Hk; [cbn in Hk; lia|]. destruct k as [|k]; cbn [firstn nth nsum_ fold_right]; [lia|].
  cbn in Hk. specialize (IH k ltac:(lia)). unfold nsum_ in IH. lia.
Qed.

(** for one-hot channel weights the children receive exactly what integer routing
    gives them *)
Lemma route_soft_one_hot eps counts K c w mask outs b f : 0 < eps <= 1 -> route_soft eps counts K w mask = Ok outs ->
  (forall k, w b f k = one_hot c k) ->
  forall k, (k < length counts)%nat ->
  let off := nsum_ (firstn k counts) in let mine := (Nat.leb off c && Nat.ltb c (off + nth k counts 0%nat))%bool in
  snd (nth k outs no_soft) b f = (mine && mask b f)%bool /\
  (mine = true -> forall j, fst (nth k outs no_soft) b f j = one_hot (c - off) j).
Proof.
  intros He H Hw k Hk. apply route_soft_nth in H. destruct H as (_ & _ & _ & H). specialize (H k Hk). cbn zeta in H |- *.
  set (off := nsum_ (firstn k counts)) in *. set (n := nth k counts 0%nat) in *.
  assert (HM : bsum n (fun j => w b f (off + j)%nat) = if (Nat.leb off c && Nat.ltb c (off + n))%bool then 1 else 0).
  { rewrite (bsum_ext n _ (fun j => one_hot c (off + j)%nat)) by (intros; apply Hw).
    destruct (Nat.leb_spec off c) as [H1|H1]; destruct (Nat.ltb_spec c (off + n)) as [H2|H2]; cbn [andb]; unfold one_hot.
    - rewrite (bsum_single n _ (c - off)%nat); [|lia|].
      + rewrite (proj2 (Nat.eqb_eq _ _)) by lia. reflexivity.
      + intros i Hi Hne. rewrite (proj2 (Nat.eqb_neq _ _)) by lia. reflexivity.
    - apply bsum_zero. intros i Hi. rewrite (proj2 (Nat.eqb_neq _ _)) by lia. reflexivity.
    - apply bsum_zero. intros i Hi. rewrite (proj2 (Nat.eqb_neq _ _)) by lia. reflexivity.
    - apply bsum_zero. intros i Hi. rewrite (proj2 (Nat.eqb_neq _ _)) by lia. reflexivity. }
  destruct H as [Hl Hm]. rewrite Hm, HM. split.
  - destruct (_ && _)%bool; destruct (Rlt_dec 0 _); cbn [andb]; try lra; reflexivity.
  - intros Hmine j. rewrite Hl, HM, Hmine. destruct (Rlt_dec 0 1); [|lra]. rewrite Rmax_left by lra. rewrite Hw.
    apply andb_prop in Hmine. destruct Hmine as [H1 _]. apply Nat.leb_le in H1. unfold one_hot.
    destruct (Nat.eqb_spec (off + j) c), (Nat.eqb_spec j (c - off)); try lia; lra.
Qed.

(** soft weights: a child with enough mass gets normalised weights in the original
    proportions *)
Lemma route_soft_normalised eps counts K w mask outs b f : 0 < eps -> route_soft eps counts K w mask = Ok outs ->
  forall k, (k < length counts)%nat ->
  let off := nsum_ (firstn k counts) in let n := nth k counts 0%nat in
  let mass := bsum n (fun j => w b f (off + j)%nat) in eps <= mass ->
  bsum n (fun j => fst (nth k outs no_soft) b f j) = 1 /\ forall j, fst (nth k outs no_soft) b f j * mass = w b f (off + j)%nat.
Proof.
  intros He H k Hk. apply route_soft_nth in H. destruct H as (_ & _ & _ & H). specialize (H k Hk). cbn zeta in H |- *.
  intros Hmass. destruct H as [Hl _].
  assert (E : forall j, fst (nth k outs no_soft) b f j = w b f (nsum_ (firstn k counts) + j)%nat / bsum (nth k counts 0%nat) (fun j => w b f (nsum_ (firstn k counts) + j)%nat)).
  { intros j. rewrite Hl. destruct (Rlt_dec _ _); [|lra]. now rewrite Rmax_left by lra. }
  split.
  - rewrite (bsum_ext _ _ _ (fun j _ => E j)), bsum_div. field. lra.
  - intros j. rewrite E. field. lra.
Qed.

(** ** index_tensor *)
Lemma fsum_fin n (t : nat -> flt) (g : nat -> R) : (forall i, (i < n)%nat -> t i = VFin (g i)) -> fsum n t = VFin (bsum n g).
Proof.
  induction n as [|n IH]; intros H; [reflexivity|]. cbn. rewrite IH, (H n) by (intros; auto with arith). reflexivity.
Qed.
Lemma index_agree n t i : (i < n)%nat -> (forall k, (k < n)%nat -> exists r, t k = VFin r) ->
  gather n t i = Ok (index_one_hot n t (one_hot i)).
Proof.
  intros Hi H. unfold gather. apply Nat.ltb_lt in Hi as Hi'. rewrite Hi'. f_equal.
  set (g := fun k => match t k with VFin r => r | _ => 0 end).
  assert (Ht : forall k, (k < n)%nat -> t k = VFin (g k)) by (intros k Hk; unfold g; destruct (H k Hk) as [r ->]; reflexivity).
  unfold index_one_hot. rewrite (fsum_fin n _ (fun k => one_hot i k * g k)).
  - rewrite bsum_one_hot by assumption. now apply Ht.
  - intros k Hk. rewrite (Ht k Hk). cbn. f_equal. ring.
Qed.

(** ** SIMPLE *)
Lemma rargmax_lt n g : (0 < n)%nat -> (rargmax n g < n)%nat.
Proof.
  induction n as [|n IH]; [lia|]. intros _. cbn. destruct (Nat.eqb_spec n 0) as [->|Hn]; [lia|].
  destruct (Rlt_dec _ _); [lia|]. specialize (IH ltac:(lia)). lia.
Qed.
Lemma rargmax_max n g : forall i, (i < n)%nat -> g i <= g (rargmax n g).
Proof.
  induction n as [|n IH]; intros i Hi; [lia|]. cbn. destruct (Nat.eqb_spec n 0) as [->|Hn].
  - replace i with 0%nat by lia. lra.
  - destruct (Rlt_dec (g (rargmax n g)) (g n)) as [H|H].
    + destruct (Nat.eq_dec i n) as [->|]; [lra|]. specialize (IH i ltac:(lia)). lra.
    + destruct (Nat.eq_dec i n) as [->|]; [lra|]. apply IH. lia.
Qed.
Lemma simple_one_hot n base y : (0 < n)%nat -> exists i, (i < n)%nat /\ (forall k, (k < n)%nat -> base k <= base i) /\
  forall k, simple_value n base y k = one_hot i k.
Proof.
  intros Hn. set (soft i := exp (base i) / bsum n (fun j => exp (base j))).
  exists (rargmax n soft). split; [now apply rargmax_lt|]. split.
  - intros k Hk. pose proof (rargmax_max n soft k Hk) as H. unfold soft at 1 2 in H.
    assert (HZ : 0 < bsum n (fun j => exp (base j))) by (apply bsum_pos; [assumption|intros; apply exp_pos]).
    apply Rmult_le_reg_r in H; [|now apply Rinv_0_lt_compat].
    destruct (Rle_or_lt (base k) (base (rargmax n soft))) as [|Hlt]; [assumption|]. apply exp_increasing in Hlt. lra.
  - intros k. unfold simple_value. fold soft. lra.
Qed.
