(** Properties C42, C128-C131: learn_cnet. *)
From Coq Require Import List Arith ZArith Bool Reals Lia Lra Permutation Sorted.
From Verif Require Import Base ScopeModel ScopeProofs CircuitModel Integral LearnModel LearnTop SignedModel SignedProofs CltModel CltSpec CltFit P_Clt
  CnetModel CnetSpec CnetProofs CnetTop CnetMain.
Import ListNotations.
Local Open Scope R_scope.

(** the order of the conditioning variables *)
Definition order_of (cards : nat -> nat) (perm : option (list nat)) (data : dataset) (q : list nat) : list nat :=
  match perm with Some p => p | None => naive_order cards data q end.
(** for cond="random": a shuffle of the scope *)
Definition shuffle (perm : option (list nat)) (q : list nat) : Prop := match perm with Some p => Permutation q p | None => True end.
Lemma order_perm cards perm data q : shuffle perm q -> Permutation q (order_of cards perm data q).
Proof. destruct perm; cbn; [auto|intros _; apply naive_order_perm]. Qed.
Lemma learn_build lf D cards oc minf mini perm data q m : learn_cnet lf D cards oc minf mini perm data q = Ok m ->
  validate D cards q data = true /\ build lf cards oc minf mini (order_of cards perm data q) (S (length q)) data q = Ok m.
Proof. unfold learn_cnet, order_of. destruct (validate _ _ _ _); [auto|discriminate]. Qed.
Lemma valid_cards D cards q data v : validate D cards q data = true -> In v q -> (0 < cards v)%nat.
Proof.
  intros H Hv. destruct (validate_inv _ _ _ _ H) as [N F]. assert (data <> []) as Nd by (apply N; intros ->; destruct Hv). destruct data as [|x data]; [congruence|].
  inversion F as [|? ? [_ Hx] _]; subst. destruct (Hx v Hv) as (a & _ & Ha). apply INR_lt. cbn. lra.
Qed.

(** Only complete data with values in range is accepted. *)
Theorem C42_validates : forall lf D cards oc minf mini perm data q m, q <> [] -> learn_cnet lf D cards oc minf mini perm data q = Ok m ->
  data <> [] /\ Forall (fun x => (forall v, (v < D)%nat -> x v <> None) /\ forall v, In v q -> exists a, x v = Some a /\ 0 <= a < INR (cards v)) data.
Proof. intros lf D cards oc minf mini perm data q m Hq E. apply learn_build in E. destruct (validate_inv _ _ _ _ (proj1 E)) as [A B]. split; auto. Qed.
Print Assumptions C42_validates.

(** The learned circuit has the requested scope and is normalised if the leaves are. *)
Theorem C42_normalised : forall lf D cards oc minf mini perm data q m, learn_cnet lf D cards oc minf mini perm data q = Ok m -> NoDup q ->
  (NoDup (cscope m) /\ forall v, In v (cscope m) <-> In v q) /\
  ((1 <= oc)%nat -> (forall v, (0 < cards v)%nat) ->
   (forall d q p, lf d q = Ok p -> NoDup q -> forall c x, (c < oc)%nat -> dsum cards q (p c) x = 1) ->
   forall c x, (c < oc)%nat -> dsum cards q (cprob oc m c) x = 1).
Proof.
  intros lf D cards oc minf mini perm data q m E ND. apply learn_build in E. destruct E as [_ E]. split; [now apply (build_scope _ _ _ _ _ _ _ _ _ _ E)|].
  intros H1 H2 H3. now apply (build_normalised _ _ _ _ _ _ H1 H2 H3 _ _ _ _ E).
Qed.
Print Assumptions C42_normalised.

(** What is learned: a complete row [x] has probability zero if the data has no row
    that agrees with it on the variables conditioned on, [pre] (a prefix of the
    order); otherwise the share of the agreeing rows times the probability of the leaf
    fitted on them over the other variables (averaged over the channels below a Sum). *)
Theorem C42_semantics : forall lf D cards oc minf mini perm data q m, learn_cnet lf D cards oc minf mini perm data q = Ok m ->
  NoDup q -> q <> [] -> (1 <= oc)%nat -> shuffle perm q -> Forall (discrete cards q) data ->
  forall x, discrete cards q x ->
  exists (j : nat) (avg : bool), let pre := firstn j (order_of cards perm data q) in let s := agreeing x pre data in
    (s = [] /\ forall c, (c < oc)%nat -> cprob oc m c x = 0) \/
    (s <> [] /\ (length (rest pre q) <= minf \/ length s < mini \/ length (rest pre q) = 1)%nat /\
     exists p, lf s (rest pre q) = Ok p /\
       forall c, (c < oc)%nat -> cprob oc m c x = INR (length s) / INR (length data) * (if avg then mean oc (fun c' => p c' x) else p c x)).
Proof.
  intros lf D cards oc minf mini perm data q m E ND Hq Ho Hs HD x HX. apply learn_build in E. destruct E as [V E].
  assert (P := order_perm cards perm data q Hs). destruct (validate_inv _ _ _ _ V) as [N _].
  destruct (build_sem lf cards oc minf mini (order_of cards perm data q) Ho _ _ _ _ x E ND (Permutation_NoDup P ND) (fun v => Permutation_in v P) (N Hq) HD HX) as (j & avg & H).
  exists j, avg. rewrite filter_all in H; [exact H|]. intros v Hv. apply memb_In. apply (Permutation_in v (Permutation_sym P) Hv).
Qed.
Print Assumptions C42_semantics.

(** Every training row has positive probability under every positive leaf. *)
Theorem C42_training_rows : forall lf D cards oc minf mini perm data q m, learn_cnet lf D cards oc minf mini perm data q = Ok m ->
  NoDup q -> q <> [] -> (1 <= oc)%nat -> shuffle perm q -> Forall (discrete cards q) data ->
  (forall d q p x c, lf d q = Ok p -> In x d -> (c < oc)%nat -> 0 < p c x) ->
  forall x c, In x data -> (c < oc)%nat -> 0 < cprob oc m c x.
Proof.
  intros lf D cards oc minf mini perm data q m E ND Hq Ho Hs HD HP x c Hx Hc. assert (DX : discrete cards q x) by (rewrite Forall_forall in HD; now apply HD).
  assert (P := order_perm cards perm data q Hs).
  destruct (C42_semantics _ _ _ _ _ _ _ _ _ _ E ND Hq Ho Hs HD x DX) as (j & avg & H). cbn zeta in H. set (pre := firstn j _) in H.
  assert (In x (agreeing x pre data)) as Ha.
  { apply filter_In. split; [exact Hx|]. apply forallb_forall. intros v Hv.
    assert (In v q) as Hq' by (apply (Permutation_in v (Permutation_sym P)); unfold pre in Hv; rewrite <- (firstn_skipn j); apply in_or_app; now left).
    destruct (DX v Hq') as (k & _ & ->). now apply reqb_spec. }
  destruct H as [[S0 _]|(S0 & _ & p & Ep & H)]; [rewrite S0 in Ha; destruct Ha|]. rewrite (H c Hc).
  apply Rmult_lt_0_compat; [apply Rdiv_lt_0_compat; apply length_nonnil; [exact S0|intros ->; destruct Hx]|]. destruct avg; [|now apply (HP _ _ _ _ _ Ep)].
  unfold mean. apply Rdiv_lt_0_compat; [|apply lt_0_INR; lia]. apply bsum_pos; [lia|]. intros c' Hc'. now apply (HP _ _ _ _ _ Ep).
Qed.
Print Assumptions C42_training_rows.

(** Learning succeeds on exact data without gaps, and always on binary variables. *)
Theorem C42_succeeds : forall lf D cards oc minf mini perm data q, NoDup q -> q <> [] -> data <> [] -> (1 <= oc)%nat -> (forall v, (0 < cards v)%nat) ->
  Forall (discrete cards q) data -> Forall (fun x => forall v, (v < D)%nat -> x v <> None) data ->
  (forall d q, q <> [] -> exists p, lf d q = Ok p) ->
  (no_gaps cards q data \/ forall v, In v q -> (cards v <= 2)%nat) ->
  exists m, learn_cnet lf D cards oc minf mini perm data q = Ok m.
Proof.
  intros lf D cards oc minf mini perm data q ND Hq N Ho Hc HD HC Hlf HG. unfold learn_cnet. rewrite validate_ok by assumption.
  apply build_ok; try assumption; [lia|]. destruct HG as [HG|HG]; [exact HG|now apply no_gaps_binary].
Qed.
Print Assumptions C42_succeeds.

(** The learned circuit can be evaluated if no combination of values occurs exactly once. *)
Theorem C42_evaluable : forall lf D cards oc minf mini perm data q m, learn_cnet lf D cards oc minf mini perm data q = Ok m ->
  NoDup q -> q <> [] -> (1 <= oc)%nat -> (forall v, (0 < cards v)%nat) -> Forall (discrete cards q) data ->
  (forall ass, length (with_values ass data) <> 1%nat) ->
  forall c x, clog_likelihood oc m c x = Ok (cprob oc m c x).
Proof.
  intros lf D cards oc minf mini perm data q m E ND Hq Ho Hc HD H1 c x. apply learn_build in E. destruct E as [V E]. destruct (validate_inv _ _ _ _ V) as [N _].
  unfold clog_likelihood. now rewrite (build_ready _ _ _ _ _ _ Ho _ _ _ _ E ND (N Hq) HD Hc H1).
Qed.
Print Assumptions C42_evaluable.

(** The default order is a permutation of the scope by non-increasing empirical entropy. *)
Theorem C42_order : forall cards data q, (forall v, In v q -> (0 < cards v)%nat) -> Forall (discrete cards q) data -> data <> [] -> INR (length data) <= 10 ^ 12 ->
  let h v := - bsum (cards v) (fun k => let f := INR (length (slice data v k)) / INR (length data) in f * ln f) in
  Permutation q (naive_order cards data q) /\ StronglySorted (fun u v => h v <= h u) (naive_order cards data q).
Proof.
  intros cards data q Hc HD N HN h. split; [apply naive_order_perm|]. assert (S := naive_order_sorted cards data q).
  assert (I : forall v, In v (naive_order cards data q) -> entropy data v (cards v) = h v).
  { intros v Hv. apply (entropy_spec cards q); auto. apply (Permutation_in v (Permutation_sym (naive_order_perm cards data q)) Hv). }
  induction S as [|u l S IH F]; [constructor|]. constructor; [apply IH; intros; apply I; now right|]. rewrite Forall_forall in *. intros w Hw.
  rewrite <- (I u) by now left. rewrite <- (I w) by now right. now apply F.
Qed.
Print Assumptions C42_order.

(** *** examples *)
Definition mkrow (l : list nat) : row := fun v => Some (INR (nth v l 0%nat)).
Lemma reqb_INR a b : reqb (INR a) (INR b) = Nat.eqb a b.
Proof. destruct (Nat.eqb_spec a b) as [->|H]; [now apply reqb_spec|]. destruct (reqb (INR a) (INR b)) eqn:E; [|reflexivity]. apply reqb_spec, INR_eq in E. contradiction. Qed.
Lemma slice_mk L v k : slice (map mkrow L) v k = map mkrow (filter (fun l => Nat.eqb (nth v l 0%nat) k) L).
Proof. unfold slice. induction L as [|l L IH]; [reflexivity|]. cbn [map filter mkrow]. rewrite reqb_INR. destruct (Nat.eqb _ k); cbn [map]; now rewrite IH. Qed.
Lemma discrete_mk (K : nat) q L : (forall l v, In l L -> In v q -> (nth v l 0 < K)%nat) -> Forall (discrete (fun _ => K) q) (map mkrow L).
Proof. intros H. apply Forall_forall. intros x Hx. apply in_map_iff in Hx. destruct Hx as (l & <- & Hl). intros v Hv. exists (nth v l 0%nat). split; [now apply H|reflexivity]. Qed.
Lemma complete_mk D L : Forall (fun x => forall v, (v < D)%nat -> x v <> None) (map mkrow L).
Proof. apply Forall_forall. intros x Hx. apply in_map_iff in Hx. destruct Hx as (l & <- & _). intros v _. discriminate. Qed.

(** uniform leaves over binary variables *)
Definition ulf (d : dataset) (q : list nat) : result (nat -> row -> R) := Ok (fun _ _ => (/ 2) ^ length q).
Lemma dsum_const a q x : dsum (fun _ => 2%nat) q (fun _ => a) x = 2 ^ length q * a.
Proof. revert x. induction q as [|v q IH]; intros x; cbn [dsum length pow]; [lra|]. rewrite (bsum_ext 2 _ (fun _ => 2 ^ length q * a)) by (intros; apply IH). rewrite bsum_const. cbn [INR]. lra. Qed.
Definition exL : list (list nat) := repeat [0; 0; 1]%nat 12 ++ repeat [1; 1; 0]%nat 20 ++ repeat [1; 0; 1]%nat 4.
Example C42_nonvacuous : exists m, learn_cnet ulf 3 (fun _ => 2%nat) 2 1 20 None (map mkrow exL) [0; 1; 2]%nat = Ok m /\
  (forall c x, (c < 2)%nat -> dsum (fun _ => 2%nat) [0; 1; 2]%nat (cprob 2 m c) x = 1) /\
  (forall x c, In x (map mkrow exL) -> (c < 2)%nat -> 0 < cprob 2 m c x).
Proof.
  assert (B : forall l v, In l exL -> (v < 3)%nat -> (nth v l 0 < 2)%nat).
  { intros l v Hl Hv. unfold exL in Hl. rewrite !in_app_iff in Hl. destruct Hl as [H|[H|H]]; apply repeat_spec in H; subst l; destruct v as [|[|[|v]]]; cbn; lia. }
  assert (HD : Forall (discrete (fun _ => 2%nat) [0; 1; 2]%nat) (map mkrow exL)) by (apply discrete_mk; intros l v Hl [<-|[<-|[<-|[]]]]; apply B; auto; lia).
  assert (ND : NoDup [0; 1; 2]%nat) by (repeat constructor; cbn; intuition lia).
  destruct (C42_succeeds ulf 3 (fun _ => 2%nat) 2 1 20 None (map mkrow exL) [0; 1; 2]%nat) as [m E]; try assumption; try discriminate; try (intros; lia); try apply complete_mk; try (right; intros; lia).
  - intros; unfold ulf; eauto.
  - exists m. split; [exact E|]. split.
    + apply (proj2 (C42_normalised _ _ _ _ _ _ _ _ _ _ E ND)); [lia|intros; lia|]. intros d q p Ep _ c x _. injection Ep as <-. rewrite dsum_const. rewrite <- Rpow_mult_distr, Rinv_r by lra. apply pow1.
    + apply (C42_training_rows _ _ _ _ _ _ _ _ _ _ E ND); try assumption; try discriminate; try lia; [exact I|]. intros d q p x c Ep _ _. injection Ep as <-. apply pow_lt. lra.
Qed.
Lemma ok_inj {A} (a b : A) : Ok a = Ok b -> a = b.
Proof. congruence. Qed.
(** doubled data has no combination that occurs exactly once *)
Lemma doubled L ass : length (with_values ass (map mkrow (L ++ L))) <> 1%nat.
Proof.
  assert (forall ass L, exists L', with_values ass (map mkrow (L ++ L)) = map mkrow (L' ++ L')) as H.
  { induction ass0 as [|[v k] a IH]; intros L0; [now exists L0|]. unfold with_values. cbn [fold_left fst snd]. fold (with_values a). rewrite slice_mk, filter_app. apply IH. }
  destruct (H ass L) as [L' ->]. rewrite map_length, app_length. lia.
Qed.
Example C42_evaluable_nonvacuous : exists m, learn_cnet ulf 3 (fun _ => 2%nat) 2 1 20 None (map mkrow (exL ++ exL)) [0; 1; 2]%nat = Ok m /\
  forall c x, clog_likelihood 2 m c x = Ok (cprob 2 m c x).
Proof.
  assert (B : forall l v, In l (exL ++ exL) -> (v < 3)%nat -> (nth v l 0 < 2)%nat).
  { intros l v Hl Hv. unfold exL in Hl. rewrite !in_app_iff in Hl. destruct Hl as [[H|[H|H]]|[H|[H|H]]]; apply repeat_spec in H; subst l; destruct v as [|[|[|v]]]; cbn; lia. }
  assert (HD : Forall (discrete (fun _ => 2%nat) [0; 1; 2]%nat) (map mkrow (exL ++ exL))) by (apply discrete_mk; intros l v Hl [<-|[<-|[<-|[]]]]; apply B; auto; lia).
  assert (ND : NoDup [0; 1; 2]%nat) by (repeat constructor; cbn; intuition lia).
  destruct (C42_succeeds ulf 3 (fun _ => 2%nat) 2 1 20 None (map mkrow (exL ++ exL)) [0; 1; 2]%nat) as [m E]; try assumption; try discriminate; try (intros; lia); try apply complete_mk; try (right; intros; lia).
  - intros; unfold ulf; eauto.
  - exists m. split; [exact E|]. apply (C42_evaluable _ _ _ _ _ _ _ _ _ _ E ND); try assumption; try discriminate; try (intros; lia); apply doubled.
Qed.

(** *** C128 (refuted): learn_cnet succeeds on every valid discrete data set.  A value that
    does not occur gives a zero weight, which Sum rejects; default arguments,
    either order. *)
Definition gapL : list (list nat) := repeat [0; 0]%nat 10 ++ repeat [1; 1]%nat 10.
Theorem C128_missing_value_refuted : exists data cards q D,
  NoDup q /\ Forall (discrete cards q) data /\ Forall (fun x => forall v, (v < D)%nat -> x v <> None) data /\ validate D cards q data = true /\
  forall lf perm, (forall d q, q <> [] -> exists p, lf d q = Ok p) -> shuffle perm q -> learn_cnet lf D cards 1 1 20 perm data q = Err.
Proof.
  exists (map mkrow gapL), (fun _ => 3%nat), [0; 1]%nat, 2%nat.
  assert (HD : Forall (discrete (fun _ => 3%nat) [0; 1]%nat) (map mkrow gapL)).
  { apply discrete_mk. intros l v Hl Hv. unfold gapL in Hl. rewrite in_app_iff in Hl. destruct Hl as [H|H]; apply repeat_spec in H; subst l; destruct Hv as [<-|[<-|[]]]; cbn; lia. }
  assert (ND : NoDup [0; 1]%nat) by (repeat constructor; cbn; intuition lia).
  split; [exact ND|]. split; [exact HD|]. split; [apply complete_mk|]. split; [apply validate_ok; [discriminate|exact HD|apply complete_mk]|].
  intros lf perm Hlf Hs. destruct (learn_cnet lf 2 (fun _ => 3%nat) 1 1 20 perm (map mkrow gapL) [0; 1]%nat) as [m|] eqn:E; [exfalso|reflexivity]. apply learn_build in E. destruct E as [_ E].
  assert (P := order_perm (fun _ => 3%nat) perm (map mkrow gapL) [0; 1]%nat Hs).
  destruct (build_first _ _ _ _ _ _ (le_n 1) _ _ _ _ ND (Permutation_NoDup P ND) (fun v => Permutation_in v P) E) as [[_ [H|[H|H]]]|(cv & ord' & sub & _ & _ & Hcv & _ & EC)].
  - cbn in H. lia.
  - rewrite map_length in H. cbn in H. lia.
  - cbn in H. lia.
  - assert (L : forall k, length (slice (map mkrow gapL) cv k) = match k with 0 | 1 => 10 | _ => 0 end%nat).
    { intros k. rewrite slice_mk, map_length. destruct Hcv as [<-|[<-|[]]]; destruct k as [|[|k]]; vm_compute; reflexivity. }
    assert (W : forall k, wt 3 (fun k => length (slice (map mkrow gapL) cv k)) k = INR (match k with 0 | 1 => 10 | _ => 0 end%nat) / 20).
    { intros k. unfold wt. cbn [seq map]. rewrite !L. unfold list_sum. cbn [fold_right Nat.add Nat.eqb]. f_equal. cbn [INR]. lra. }
    destruct (combine_spec 1 3 (fun k => length (slice (map mkrow gapL) cv k)) (fun k => CBranch cv k (sub k)) ltac:(lia) ltac:(lia)) as [(k0 & H0 & _ & Z & _)|[[A _]|(_ & _ & Er)]].
    + destruct k0 as [|k0].
      * specialize (Z 1%nat ltac:(lia) ltac:(lia)). rewrite W in Z. cbn [INR] in Z. lra.
      * specialize (Z 0%nat ltac:(lia) ltac:(lia)). rewrite W in Z. cbn [INR] in Z. lra.
    + specialize (A 2%nat ltac:(lia)). rewrite W in A. cbn [INR] in A. lra.
    + cbn zeta in Er. rewrite Er in EC. discriminate.
Qed.
Print Assumptions C128_missing_value_refuted.

(** *** C129 (refuted): the learned circuit can be evaluated.  A slice with a single row
    gets a Chow-Liu tree without structure. *)
Definition oneL : list (list nat) := repeat [0; 0; 0]%nat 19 ++ [[1; 1; 1]]%nat.
Theorem C129_unfitted_leaf_refuted : exists data q D, NoDup q /\ Forall (discrete (fun _ => 2%nat) q) data /\
  forall lf perm, (forall d q, q <> [] -> exists p, lf d q = Ok p) -> shuffle perm q ->
    exists m, learn_cnet lf D (fun _ => 2%nat) 1 1 20 perm data q = Ok m /\ forall c x, clog_likelihood 1 m c x = Err.
Proof.
  exists (map mkrow oneL), [0; 1; 2]%nat, 3%nat.
  assert (HD : Forall (discrete (fun _ => 2%nat) [0; 1; 2]%nat) (map mkrow oneL)).
  { apply discrete_mk. intros l v Hl Hv. unfold oneL in Hl. rewrite in_app_iff in Hl. destruct Hl as [H|[<-|[]]]; [apply repeat_spec in H; subst l|]; destruct Hv as [<-|[<-|[<-|[]]]]; cbn; lia. }
  assert (ND : NoDup [0; 1; 2]%nat) by (repeat constructor; cbn; intuition lia).
  split; [exact ND|]. split; [exact HD|]. intros lf perm Hlf Hs.
  destruct (C42_succeeds lf 3 (fun _ => 2%nat) 1 1 20 perm (map mkrow oneL) [0; 1; 2]%nat) as [m E]; try assumption; try discriminate; try (intros; lia); try apply complete_mk; try (right; intros; lia). exists m. split; [exact E|].
  apply learn_build in E. destruct E as [_ E].
  assert (P := order_perm (fun _ => 2%nat) perm (map mkrow oneL) [0; 1; 2]%nat Hs).
  destruct (build_first _ _ _ _ _ _ (le_n 1) _ _ _ _ ND (Permutation_NoDup P ND) (fun v => Permutation_in v P) E) as [[_ [H|[H|H]]]|(cv & ord' & sub & _ & _ & Hcv & HS & EC)].
  - cbn in H. lia.
  - rewrite map_length in H. cbn in H. lia.
  - cbn in H. lia.
  - assert (L0 : length (slice (map mkrow oneL) cv 0) = 19%nat) by (rewrite slice_mk, map_length; destruct Hcv as [<-|[<-|[<-|[]]]]; vm_compute; reflexivity).
    assert (L1 : slice (map mkrow oneL) cv 1 = [mkrow [1; 1; 1]%nat]) by (rewrite slice_mk; destruct Hcv as [<-|[<-|[<-|[]]]]; reflexivity).
    assert (R1 : cready (CBranch cv 1 (sub 1%nat)) = false).
    { destruct (HS 1%nat ltac:(lia)) as [[K _]|[_ K]]; [rewrite L1 in K; discriminate|]. rewrite L1 in K.
      assert (exists a b, without cv [0; 1; 2]%nat = [a; b]) as (a & b & Er) by (destruct Hcv as [<-|[<-|[<-|[]]]]; cbn; eauto). rewrite Er in K. cbn [build length Nat.leb Nat.ltb orb] in K.
      unfold create_leaf in K. destruct (lf [mkrow [1; 1; 1]%nat] [a; b]) as [p|]; [|discriminate]. cbn [bind length Nat.leb] in K. assert (CTree [a; b] false p = sub 1%nat) as <- by (injection K; auto). reflexivity. }
    cbv beta in EC.
    destruct (combine_spec 1 2 (fun k => length (slice (map mkrow oneL) cv k)) (fun k => CBranch cv k (sub k)) ltac:(lia) ltac:(lia)) as [(k0 & H0 & P0 & Z & Er)|[[A Er]|(_ & _ & Er)]];
      cbv zeta in Er; pose proof (eq_trans (eq_sym Er) EC) as EM; [| |discriminate EM]; apply ok_inj in EM; subst m.
    + exfalso. assert (W : forall k, wt 2 (fun k => length (slice (map mkrow oneL) cv k)) k = INR (length (slice (map mkrow oneL) cv k)) / 20).
      { intros k. unfold wt. cbn [seq map]. rewrite L0, L1. cbn [length]. unfold list_sum. cbn [fold_right Nat.add Nat.eqb]. f_equal. cbn [INR]. lra. }
      destruct k0 as [|k0].
      * specialize (Z 1%nat ltac:(lia) ltac:(lia)). rewrite W, L1 in Z. cbn [length INR] in Z. lra.
      * specialize (Z 0%nat ltac:(lia) ltac:(lia)). rewrite W, L0 in Z. cbn [INR] in Z. lra.
    + intros c x. unfold clog_likelihood. cbn [seq map].
      assert (cready (CMix [wt 2 (fun k => length (slice (map mkrow oneL) cv k)) 0 / INR 1; wt 2 (fun k => length (slice (map mkrow oneL) cv k)) 1 / INR 1] [CBranch cv 0 (sub 0%nat); CBranch cv 1 (sub 1%nat)])
              = (cready (CBranch cv 0 (sub 0%nat)) && (cready (CBranch cv 1 (sub 1%nat)) && true))%bool) as -> by reflexivity.
      rewrite R1, andb_false_r. reflexivity.
Qed.
Print Assumptions C129_unfitted_leaf_refuted.

(** *** C130 (refuted): every accepted row is used.  Values within the tolerance of the
    integrality check that are not exact match no branch: the weights become uniform
    and the leaves are never estimated. *)
Definition off1 : row := fun _ => Some (1 + / 10 ^ 6).
Theorem C130_near_integers_refuted : exists data q D, validate D (fun _ => 2%nat) q data = true /\
  Forall (fun x => forall v, In v q -> exists a, x v = Some a /\ round a = 1) data /\ length data = 20%nat /\
  forall lf, (forall d q, q <> [] -> exists p, lf d q = Ok p) ->
    exists p, lf [] [1%nat] = Ok p /\
      learn_cnet lf D (fun _ => 2%nat) 1 1 20 (Some q) data q = Ok (CMix [1 / 2; 1 / 2] [CBranch 0 0 (CCateg 1 p); CBranch 0 1 (CCateg 1 p)]).
Proof.
  assert (E6 : 0 < / 10 ^ 6 < 1 / 100). { split; [apply Rinv_0_lt_compat; lra|]. apply Rmult_lt_reg_l with (10 ^ 6); [lra|]. rewrite Rinv_r by lra. lra. }
  assert (RD : round (1 + / 10 ^ 6) = 1). { unfold round. f_equal. symmetry. apply tech_up; lra. }
  assert (V : validate 2 (fun _ => 2%nat) [0; 1]%nat (repeat off1 20) = true).
  { unfold validate. apply andb_true_iff. split; apply forallb_forall.
    - intros x Hx. apply repeat_spec in Hx. subst x. reflexivity.
    - intros v Hv. apply andb_true_iff. split; [reflexivity|]. apply forallb_forall. intros x Hx. apply repeat_spec in Hx. subst x. unfold off1.
      assert (near_int (1 + / 10 ^ 6) = true) as ->.
      { unfold near_int. rewrite RD. apply rleb_spec. replace (1 + / 10 ^ 6 - 1) with (/ 10 ^ 6) by ring. rewrite Rabs_pos_eq by lra. rewrite Rabs_R1.
        assert (/ 10 ^ 6 <= / 10 ^ 5) by (apply Rinv_le_contravar; lra). assert (0 < / 10 ^ 8) by (apply Rinv_0_lt_compat; lra). lra. }
      assert (rleb 0 (1 + / 10 ^ 6) = true) as -> by (apply rleb_spec; lra). assert (rleb (INR 2) (1 + / 10 ^ 6) = false) as -> by (apply rleb_false; cbn [INR]; lra). reflexivity. }
  exists (repeat off1 20), [0; 1]%nat, 2%nat. split; [exact V|]. split; [|split; [apply repeat_length|]].
  - apply Forall_forall. intros x Hx. apply repeat_spec in Hx. subst x. intros v _. exists (1 + / 10 ^ 6). split; [reflexivity|exact RD].
  - intros lf Hlf. destruct (Hlf [] [1%nat] ltac:(discriminate)) as [p Ep]. exists p. split; [exact Ep|]. unfold learn_cnet. rewrite V.
    assert (S0 : forall k, (k < 2)%nat -> slice (repeat off1 20) 0 k = []).
    { intros k Hk. destruct (slice (repeat off1 20) 0 k) as [|y l] eqn:ES; [reflexivity|exfalso].
      assert (In y (slice (repeat off1 20) 0 k)) as Hy by (rewrite ES; now left). apply filter_In in Hy. destruct Hy as [Hy E]. apply repeat_spec in Hy. subst y. unfold off1 in E. apply reqb_spec in E.
      destruct k as [|[|k]]; cbn [INR] in E; [lra|lra|lia]. }
    cbn [length build]. assert (Nat.ltb (length (repeat off1 20)) 20 = false) as -> by (rewrite repeat_length; reflexivity). cbn [Nat.leb orb find]. assert (memb 0 [0; 1]%nat = true) as -> by reflexivity. cbn [filter Nat.eqb negb].
    cbn [seq]. cbn [mapR]. rewrite !S0 by lia. cbn [length Nat.eqb]. assert (create_leaf lf [] [1%nat] = Ok (CCateg 1 p)) as -> by (unfold create_leaf; now rewrite Ep). cbn [bind mapR map]. rewrite !S0 by lia. cbn [length].
    destruct (combine_spec 1 2 (fun _ => 0%nat) (fun k => CBranch 0 k (CCateg 1 p)) ltac:(lia) ltac:(lia)) as [(k0 & H0 & P0 & Z & Er)|[[A Er]|((z & Hz & Wz) & _ & Er)]].
    + exfalso. destruct k0 as [|k0].
      * specialize (Z 1%nat ltac:(lia) ltac:(lia)). unfold wt in Z. cbn in Z. lra.
      * specialize (Z 0%nat ltac:(lia) ltac:(lia)). unfold wt in Z. cbn in Z. lra.
    + cbn zeta in Er. cbn [seq map] in Er. rewrite Er. unfold wt. cbn -[Rdiv]. do 3 f_equal; [lra|f_equal; lra].
    + exfalso. unfold wt in Wz. cbn in Wz. lra.
Qed.
Print Assumptions C130_near_integers_refuted.

(** *** C131 (refuted): the leaves put no mass outside the declared cardinalities.  All
    variables of a Chow-Liu leaf share the largest cardinality, and smoothing gives
    every value of it positive probability. *)
Theorem C131_impossible_values_refuted : forall K alpha parents d i xp card, (card < K)%nat -> / 10 ^ 12 <= alpha ->
  (forall wx, In wx d -> 0 <= fst wx) -> (forall wx, In wx d -> (snd wx i < card)%nat) ->
  (0 < pr (mle_cpt K alpha parents d i card xp)) /\
  ((forall k, (k < K)%nat -> / 10 ^ 12 <= (alpha + wsum d (fun x => Nat.eqb (x i) k && (Z.eqb (nth i parents (-1)%Z) (-1) || Nat.eqb (x (Z.to_nat (nth i parents (-1)%Z))) xp))) /
       (INR K * alpha + wsum d (fun x => Z.eqb (nth i parents (-1)%Z) (-1) || Nat.eqb (x (Z.to_nat (nth i parents (-1)%Z))) xp))) ->
   bsum card (fun k => pr (mle_cpt K alpha parents d i k xp)) < 1).
Proof.
  intros K alpha parents d i xp card HK Ha Hw Hv.
  destruct (C107_tables K alpha parents d i xp ltac:(lia) Ha Hw) as (V & _ & NRM). { intros wx H. specialize (Hv wx H). lia. }
  assert (Pc : forall k, 0 < pr (mle_cpt K alpha parents d i k xp)).
  { intros k. rewrite V. apply Rlt_le_trans with (/ 10 ^ 12); [apply Rinv_0_lt_compat; lra|apply Rmax_r]. }
  split; [apply Pc|]. intros H. destruct (NRM H) as [S1 _].
  replace K with (card + (K - card))%nat in S1 by lia. rewrite bsum_app in S1.
  assert (0 < bsum (K - card) (fun i0 => pr (mle_cpt (card + (K - card)) alpha parents d i (card + i0) xp))).
  { apply bsum_pos; [lia|]. intros j _. replace (card + (K - card))%nat with K by lia. apply Pc. }
  replace (card + (K - card))%nat with K in * by lia. lra.
Qed.
Print Assumptions C131_impossible_values_refuted.
