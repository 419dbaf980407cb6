(** Properties C26, C27, C77-C80: sampling contexts and channel routing. *)
From Coq Require Import List Arith ZArith Bool Reals Lia Lra Permutation.
From Verif Require Import Base CtxModel CtxSpec CtxProofs.
Import ListNotations.

(** C26.  Every context built by the constructor and changed by any history of
    operations (update with repetition_index, the repetition_index setter, the
    width adaptations, the strict update, with_routing / copy), including failed
    ones, has one batch size and one width. *)
Theorem C26_consistent : forall C P (c0 c1 : C) (p1 : P) diff o,
  reach c0 c1 p1 diff safe_op o -> exists B F, consistent_at diff B F o.
Proof. exact @reach_consistent. Qed.
Print Assumptions C26_consistent.

(** a rejected operation leaves the context unchanged (all operations) *)
Theorem C26_atomic : forall C P (c0 : C) diff x (o o' : obj C P), run c0 diff x o = (false, o') -> o' = o.
Proof. exact @run_atomic. Qed.
Print Assumptions C26_atomic.

(** with the property setters too: the batch sizes still agree *)
Theorem C26_batch : forall C P (c0 c1 : C) (p1 : P) diff o, reach c0 c1 p1 diff rep_given o -> batch_consistent o.
Proof. exact @reach_batch. Qed.
Print Assumptions C26_batch.

(** what validate_sampling_context accepts is consistent and has an allowed width *)
Theorem C26_validate : forall C P diff ns widths Rr (o : obj C P), validate_shapes diff ns widths (Some Rr) o = true ->
  exists B F, consistent_at diff B F o /\ (widths <> [] -> In F widths) /\ (forall n, ns = Some n -> B = n).
Proof. exact @validate_consistent. Qed.
Print Assumptions C26_validate.

(** a history with a failing broadcast, a scatter and a setter call *)
Definition ex_ci : tensor nat := mkTensor [2; 2]%nat DInt 0 (fun b f => (10 * b + f)%nat).
Definition ex_o : obj nat nat := mkObj ex_ci (mkTensor [2; 2]%nat DBool 0 (fun b f => Nat.eqb f 1))
  (mkTensor [2]%nat DInt 0 (fun _ _ => 0%nat)) (Some 0%nat).
Definition ex_rep : op nat nat := OpSetRep (Some (mkTensor [2; 1]%nat DInt 0 (fun b _ => b))).
Definition ex_scatter : op nat nat := OpScatter [[3; 0]; [1; 2]]%Z 4.
Definition ex_o1 := snd (run 0%nat false ex_scatter ex_o).
Definition ex_o2 := snd (run 0%nat false ex_rep ex_o1).
Example C26_ex :
  init_routing 0%nat false ex_ci (Some (o_mask ex_o)) None None = Ok ex_o /\
  run 0%nat false (OpBroadcast 3 true) ex_o = (false, ex_o) /\
  run 0%nat false ex_scatter ex_o = (true, ex_o1) /\ dims (o_ci ex_o1) = [2; 4]%nat /\
  map (ent (o_ci ex_o1) 1%nat) (seq 0 4) = [11; 10; 11; 10]%nat /\
  run 0%nat false ex_rep ex_o1 = (true, ex_o2) /\ dims (o_rep ex_o2) = [2]%nat /\
  validate_shapes false (Some 2%nat) [1; 4]%nat (Some 3%nat) ex_o2 = true /\
  reach 0%nat 0%nat 0%nat false safe_op ex_o2.
Proof.
  assert (E0 : init_routing 0%nat false ex_ci (Some (o_mask ex_o)) None None = Ok ex_o) by reflexivity.
  assert (E1 : run 0%nat false ex_scatter ex_o = (true, ex_o1)) by reflexivity.
  assert (E2 : run 0%nat false ex_rep ex_o1 = (true, ex_o2)) by reflexivity.
  split; [exact E0|]. split; [reflexivity|]. split; [exact E1|]. split; [reflexivity|]. split; [vm_compute; reflexivity|].
  split; [exact E2|]. split; [reflexivity|]. split; [reflexivity|].
  apply r_op with (x := ex_rep) (o := ex_o1) (b := true); [|reflexivity|exact E2]. apply r_op with (x := ex_scatter) (o := ex_o) (b := true); [|reflexivity|exact E1]. eapply r_init. exact E0.
Qed.

(** C77: the excluded operations do break it.  (a) assigning channel_index changes
    its width only. *)
Theorem C77_setter_refuted : exists (o o' : obj nat nat) c, reach 0%nat 0%nat 0%nat false safe_op o /\
  run 0%nat false (OpSetChannel c) o = (true, o') /\ dim (o_ci o') 1 <> dim (o_mask o') 1.
Proof.
  exists ex_o. eexists. exists (mkTensor [2; 5]%nat DInt 0 (fun _ _ => 0%nat)). split; [|split].
  - eapply r_init with (m := Some (o_mask ex_o)) (p := None) (d := None) (c := ex_ci). reflexivity.
  - reflexivity.
  - cbn. lia.
Qed.
Print Assumptions C77_setter_refuted.
Theorem C77_mask_setter_refuted : exists (o o' : obj nat nat) m, reach 0%nat 0%nat 0%nat false safe_op o /\
  run 0%nat false (OpSetMask m) o = (true, o') /\ dim (o_ci o') 1 <> dim (o_mask o') 1.
Proof.
  exists ex_o. eexists. exists (mkTensor [2; 5]%nat DBool 0 (fun _ _ => true)). split; [|split].
  - eapply r_init with (m := Some (o_mask ex_o)) (p := None) (d := None) (c := ex_ci). reflexivity.
  - reflexivity.
  - cbn. lia.
Qed.
Print Assumptions C77_mask_setter_refuted.
(** (b) update(channel_index, mask) keeps a repetition_index of another batch size *)
Theorem C77_update_refuted : exists (o o' : obj nat nat) c m, reach 0%nat 0%nat 0%nat false safe_op o /\
  run 0%nat false (OpUpdate c m None) o = (true, o') /\ dim (o_rep o') 0 <> dim (o_ci o') 0.
Proof.
  exists ex_o. eexists. exists (mkTensor [3; 2]%nat DInt 0 (fun _ _ => 0%nat)), (mkTensor [3; 2]%nat DBool 0 (fun _ _ => true)). split; [|split].
  - eapply r_init with (m := Some (o_mask ex_o)) (p := None) (d := None) (c := ex_ci). reflexivity.
  - reflexivity.
  - cbn. lia.
Qed.
Print Assumptions C77_update_refuted.

(** C78.  What the width adaptations do to the entries.  Every context of C26 is
    [typed]. *)
Theorem C78_typed : forall C P (c0 c1 : C) (p1 : P) diff o, reach c0 c1 p1 diff safe_op o -> typed diff o.
Proof. exact @reach_typed. Qed.
Print Assumptions C78_typed.

Theorem C78_broadcast : forall C P diff B F n one (o : obj C P), consistent_at diff B F o -> typed diff o ->
  broadcast_feature_width diff n one o =
  if Nat.eqb F n then (true, o)
  else if (one && Nat.eqb F 1)%bool
       then (true, mkObj (mkTensor (B :: n :: tl (tl (dims (o_ci o)))) (dt (o_ci o)) (dev (o_ci o)) (fun b _ => ent (o_ci o) b 0%nat))
                         (mkTensor [B; n] (dt (o_mask o)) (dev (o_mask o)) (fun b _ => ent (o_mask o) b 0%nat))
                         (o_rep o) (o_device o))
       else (false, o).
Proof. exact @broadcast_content. Qed.
Print Assumptions C78_broadcast.

Theorem C78_repeat : forall C P diff B F s n (o : obj C P), consistent_at diff B F o -> typed diff o ->
  repeat_split_feature_width diff s n o =
  if Nat.ltb s 1 then (false, o) else if Nat.eqb F n then (true, o)
  else if Nat.eqb n (F * s)
       then (true, mkObj (mkTensor (B :: n :: tl (tl (dims (o_ci o)))) (dt (o_ci o)) (dev (o_ci o)) (fun b f => ent (o_ci o) b (f mod F)%nat))
                         (mkTensor [B; n] (dt (o_mask o)) (dev (o_mask o)) (fun b f => ent (o_mask o) b (f mod F)%nat))
                         (o_rep o) (o_device o))
       else (false, o).
Proof. exact @repeat_content. Qed.
Print Assumptions C78_repeat.

(** accepted exactly for partitions of range(n) into groups of the current width;
    column gs[i][k] receives column k *)
Theorem C78_scatter : forall C P (c0 : C) diff B F gs n (o : obj C P), consistent_at diff B F o -> typed diff o -> F <> n ->
  (fst (scatter_split_groups c0 diff gs n o) = true <->
   Permutation (concat gs) (map Z.of_nat (seq 0 n)) /\ Forall (fun g => length g = F) gs) /\
  forall o', scatter_split_groups c0 diff gs n o = (true, o') ->
    dims (o_mask o') = [B; n] /\ dims (o_ci o') = B :: n :: tl (tl (dims (o_ci o))) /\ o_rep o' = o_rep o /\
    forall i k b j, (i < length gs)%nat -> (k < F)%nat -> nth k (nth i gs []) 0%Z = Z.of_nat j ->
      ent (o_ci o') b j = ent (o_ci o) b k /\ ent (o_mask o') b j = ent (o_mask o) b k.
Proof. exact @scatter_content. Qed.
Print Assumptions C78_scatter.

Theorem C78_slice : forall C P diff B F (o : obj C P) rs l, consistent_at diff B F o -> slice_feature_ranges rs o = Ok l ->
  length l = length rs /\ forall i a b, nth_error rs i = Some (a, b) -> (0 <= a <= b)%Z /\ (b <= Z.of_nat F)%Z /\
    exists c m, nth_error l i = Some (c, m) /\ dims m = [B; Z.to_nat (b - a)] /\
      forall r j, ent c r j = ent (o_ci o) r (Z.to_nat a + j)%nat /\ ent m r j = ent (o_mask o) r (Z.to_nat a + j)%nat.
Proof. exact @slice_content. Qed.
Print Assumptions C78_slice.

Example C78_ex : consistent_at false 2 2 ex_o /\ typed false ex_o /\
  fst (repeat_split_feature_width false 2 4 ex_o) = true /\
  exists l, slice_feature_ranges [(0, 1); (1, 2)]%Z ex_o = Ok l /\ map (fun cm => ent (fst cm) 1%nat 0%nat) l = [10; 11]%nat.
Proof.
  split; [|split].
  - unfold consistent_at. cbn. repeat split; reflexivity.
  - split; reflexivity.
  - split; [reflexivity|]. eexists. split; reflexivity.
Qed.

(** C27.  Accepted exactly when every child has a channel and every active index is
    in range. *)
Theorem C27_accepts : forall counts B F ci mask, (exists l, route_int counts B F ci mask = Ok l) <->
  Forall (fun n => (1 <= n)%Z) counts /\
  forall b f, (b < B)%nat -> (f < F)%nat -> mask b f = true -> (0 <= ci b f < fold_right Z.add 0%Z counts)%Z.
Proof. exact route_int_accepts. Qed.
Print Assumptions C27_accepts.

(** Each active entry goes to exactly one child, with the local channel; inactive
    entries to none; local channels (also of inactive entries) are in range. *)
Theorem C27_route : forall counts B F ci mask outs, route_int counts B F ci mask = Ok outs ->
  length outs = length counts /\ forall b f, (b < B)%nat -> (f < F)%nat ->
  let local k := fst (nth k outs no_route) b f in
  let active k := snd (nth k outs no_route) b f in
  (forall k, (k < length counts)%nat -> (0 <= local k < nth k counts 0)%Z) /\
  (mask b f = false -> forall k, (k < length counts)%nat -> active k = false) /\
  (mask b f = true -> exists k, (k < length counts)%nat /\ active k = true /\
     local k = (ci b f - fold_right Z.add 0 (firstn k counts))%Z /\
     forall j, (j < length counts)%nat -> active j = true -> j = k).
Proof. exact route_int_spec. Qed.
Print Assumptions C27_route.

(** differentiable mode: a one-hot index is routed as the integer one ... *)
Theorem C27_soft_one_hot : forall eps counts K c w mask outs b f, (0 < eps <= 1)%R ->
  route_soft eps counts K w mask = Ok outs -> (forall k, w b f k = one_hot c k) ->
  forall k, (k < length counts)%nat ->
  let off := fold_right Nat.add 0%nat (firstn k counts) in
  let mine := (Nat.leb off c && Nat.ltb c (off + nth k counts 0%nat))%bool in
  snd (nth k outs no_soft) b f = (mine && mask b f)%bool /\
  (mine = true -> forall j, fst (nth k outs no_soft) b f j = one_hot (c - off) j).
Proof. exact route_soft_one_hot. Qed.
Print Assumptions C27_soft_one_hot.
(** ... and a child of positive mass (at least eps) receives conditional weights *)
Theorem C27_soft_normalised : forall eps counts K w mask outs b f, (0 < eps)%R ->
  route_soft eps counts K w mask = Ok outs ->
  forall k, (k < length counts)%nat ->
  let off := fold_right Nat.add 0%nat (firstn k counts) in let n := nth k counts 0%nat in
  let mass := bsum n (fun j => w b f (off + j)%nat) in (eps <= mass)%R ->
  bsum n (fun j => fst (nth k outs no_soft) b f j) = 1%R /\
  forall j, (fst (nth k outs no_soft) b f j * mass)%R = w b f (off + j)%nat.
Proof. exact route_soft_normalised. Qed.
Print Assumptions C27_soft_normalised.

Example C27_ex : exists outs, route_int [2; 3]%Z 1 2 (fun _ f => if Nat.eqb f 0 then 3%Z else 7%Z) (fun _ f => Nat.eqb f 0) = Ok outs /\
  map (fun o => (fst o 0%nat 0%nat, snd o 0%nat 0%nat)) outs = [(0%Z, false); (1%Z, true)] /\
  exists outs', route_soft 1 [2; 3]%nat 5 (fun _ _ => one_hot 3) (fun _ _ => true) = Ok outs'.
Proof. eexists. split; [reflexivity|]. split; [reflexivity|]. eexists. reflexivity. Qed.

(** C79.  On finite tensors the two indexing modes agree. *)
Theorem C79_index_agree : forall n t i, (i < n)%nat -> (forall k, (k < n)%nat -> exists r, t k = VFin r) ->
  gather n t i = Ok (index_one_hot n t (one_hot i)).
Proof. exact index_agree. Qed.
Print Assumptions C79_index_agree.
Example C79_ex : gather 2 (fun k => VFin (INR k)) 1 = Ok (index_one_hot 2 (fun k => VFin (INR k)) (one_hot 1)).
Proof. apply C79_index_agree; [lia|]. intros k _. eexists. reflexivity. Qed.
(** SIMPLE: the forward value is the one-hot vector of an argmax of the perturbed logits *)
Theorem C79_simple_one_hot : forall n base y, (0 < n)%nat -> exists i, (i < n)%nat /\
  (forall k, (k < n)%nat -> (base k <= base i)%R) /\ forall k, simple_value n base y k = if Nat.eqb k i then 1%R else 0%R.
Proof. exact simple_one_hot. Qed.
Print Assumptions C79_simple_one_hot.

(** C80: with a -inf entry (a zero-probability channel) elsewhere, one-hot indexing
    yields NaN although the gathered value is finite *)
Theorem C80_neg_inf_refuted : exists n t i r, (i < n)%nat /\ gather n t i = Ok (VFin r) /\
  index_one_hot n t (one_hot i) = VNan.
Proof.
  exists 2%nat, (fun k => if Nat.eqb k 0 then VFin 0 else VNInf), 0%nat, 0%R. split; [lia|]. split; [reflexivity|].
  unfold index_one_hot, one_hot. cbn. destruct (Req_EM_T 0 0); [reflexivity|lra].
Qed.
Print Assumptions C80_neg_inf_refuted.
(** a context made by SamplingContext(num_samples=...) has no device attribute,
    unlike one made from routing tensors *)
Theorem C80_no_device_refuted : exists n d (o : obj nat nat), init_num 0%nat 0%nat false n d = Ok o /\ o_device o = None.
Proof. exists 3%nat, 0%nat. eexists. split; reflexivity. Qed.
Print Assumptions C80_no_device_refuted.
Theorem C80_device_partial : forall C P (p1 : P) diff c m p d (o : obj C P), init_routing p1 diff c m p d = Ok o ->
  o_device o = Some (dev c).
Proof.
  intros C P p1 diff c m p d o. unfold init_routing. destruct (chan_ok diff c); [|discriminate]. cbn.
  destruct (match d with Some _ => _ | None => _ end); [discriminate|].
  match goal with |- bind ?x _ = _ -> _ => destruct x as [[[? ?] ?]|]; cbn; [|discriminate] end. intros [= <-]. reflexivity.
Qed.
Print Assumptions C80_device_partial.
