(** learn_cnet: what the learned circuit computes, and when learning succeeds. *)
From Coq Require Import List Arith ZArith Bool Reals Lia Lra Permutation Sorted.
From Verif Require Import Base ScopeModel ScopeProofs CircuitModel Integral LearnModel LearnTop SignedModel SignedProofs CnetModel CnetSpec CnetProofs CnetTop.
Import ListNotations.
Local Open Scope R_scope.

Definition value_of (v : nat) (x : row) : nat := match x v with Some a => Z.to_nat (Int_part a) | None => 0%nat end.
Lemma value_INR v x k : x v = Some (INR k) -> value_of v x = k.
Proof. unfold value_of. intros ->. rewrite Int_part_INR. apply Nat2Z.id. Qed.
Lemma slice_value cards q data v k : Forall (discrete cards q) data -> In v q -> slice data v k = filter (fun x => Nat.eqb (value_of v x) k) data.
Proof.
  intros H Hv. unfold slice. apply filter_ext_in. intros x Hx. rewrite Forall_forall in H. destruct (H x Hx v Hv) as (j & _ & Ej).
  rewrite (value_INR _ _ _ Ej), Ej. destruct (reqb (INR j) (INR k)) eqn:E; [apply reqb_spec, INR_eq in E; subst; now rewrite Nat.eqb_refl|].
  destruct (Nat.eqb_spec j k) as [->|]; [|reflexivity]. assert (reqb (INR k) (INR k) = true) by now apply reqb_spec. congruence.
Qed.
Lemma counts_total cards q data v : Forall (discrete cards q) data -> In v q ->
  list_sum (map (fun k => length (slice data v k)) (seq 0 (cards v))) = length data.
Proof.
  intros H Hv. rewrite <- (count_classes (value_of v) (seq 0 (cards v)) data).
  - f_equal. apply map_ext. intros k. now rewrite (slice_value cards q data v k H Hv).
  - apply seq_NoDup.
  - intros x Hx. rewrite Forall_forall in H. destruct (H x Hx v Hv) as (k & Hk & Ek). rewrite (value_INR _ _ _ Ek). apply in_seq. lia.
Qed.
Lemma counts_wt cards q data v k : Forall (discrete cards q) data -> In v q -> data <> [] ->
  wt (cards v) (fun k => length (slice data v k)) k = INR (length (slice data v k)) / INR (length data).
Proof.
  intros H Hv N. unfold wt. rewrite (counts_total cards q data v H Hv). destruct (Nat.eqb_spec (length data) 0) as [E|]; [|reflexivity].
  now apply length_zero_iff_nil in E.
Qed.
Lemma slice_discrete cards q data v k : Forall (discrete cards q) data -> Forall (discrete cards (without v q)) (slice data v k).
Proof.
  intros H. apply Forall_forall. intros x Hx. apply filter_In in Hx. rewrite Forall_forall in H. intros u Hu. apply without_In in Hu. apply (H x (proj1 Hx)). tauto.
Qed.
Lemma agreeing_cons x v k pre data : x v = Some (INR k) -> agreeing x (v :: pre) data = agreeing x pre (slice data v k).
Proof.
  intros E. unfold agreeing, slice. induction data as [|y data IH]; [reflexivity|]. cbn [forallb] in IH. rewrite E in IH. cbn [filter forallb]. rewrite E. destruct (y v) as [a|]; cbn [andb].
  - destruct (reqb a (INR k)); cbn [andb filter]; [|exact IH]. destruct (forallb _ pre); now rewrite IH.
  - exact IH.
Qed.
Lemma filter_all {A} (p : A -> bool) l : (forall a, In a l -> p a = true) -> filter p l = l.
Proof. induction l as [|a l IH]; intros H; [reflexivity|]. cbn. rewrite (H a) by now left. f_equal. apply IH. intros. apply H. now right. Qed.
Lemma rest_nil q : rest [] q = q.
Proof. apply filter_all. intros a _. reflexivity. Qed.
Lemma rest_cons v pre q : rest (v :: pre) q = rest pre (without v q).
Proof.
  unfold rest, without. induction q as [|u q IH]; [reflexivity|]. cbn [filter]. 
  assert (memb u (v :: pre) = (Nat.eqb u v || memb u pre)%bool) as ->.
  { unfold memb. cbn [existsb]. reflexivity. }
  destruct (Nat.eqb u v); cbn [orb negb filter]; [exact IH|]. destruct (memb u pre); cbn [negb]; now rewrite IH.
Qed.
Lemma length_nonnil {A} (l : list A) : l <> [] -> 0 < INR (length l).
Proof. intros H. apply lt_0_INR. destruct l; [congruence|cbn; lia]. Qed.

Section Sem.
Variables (lf : dataset -> list nat -> result (nat -> row -> R)) (cards : nat -> nat) (oc minf mini : nat) (ord : list nat).
Notation build := (build lf cards oc minf mini ord).
Notation create_leaf := (create_leaf lf).
Hypothesis Hoc : (1 <= oc)%nat.

Notation mean := (mean oc).

(** the leaf reached by [x] *)
Definition reads (data : dataset) (q : list nat) (x : row) (m : cnet) (pre : list nat) (avg : bool) : Prop :=
  let s := agreeing x pre data in
  (s = [] /\ forall c, (c < oc)%nat -> cprob oc m c x = 0) \/
  (s <> [] /\ (length (rest pre q) <= minf \/ length s < mini \/ length (rest pre q) = 1)%nat /\
   exists p, lf s (rest pre q) = Ok p /\
     forall c, (c < oc)%nat -> cprob oc m c x = INR (length s) / INR (length data) * (if avg then mean (fun c' => p c' x) else p c x)).

Lemma build_first n data q m : NoDup q -> NoDup ord -> incl q ord -> build (S n) data q = Ok m ->
  (create_leaf data q = Ok m /\ (length q <= minf \/ length data < mini \/ length q = 1)%nat) \/
  exists cv ord' sub, filter (fun v => memb v q) ord = cv :: ord' /\ ord' = filter (fun v => memb v (without cv q)) ord /\ In cv q /\
    (forall k, (k < cards cv)%nat -> (slice data cv k = [] /\ create_leaf [] (without cv q) = Ok (sub k)) \/
                                     (slice data cv k <> [] /\ build n (slice data cv k) (without cv q) = Ok (sub k))) /\
    combine_branches oc (map (fun k => length (slice data cv k)) (seq 0 (cards cv))) (map (fun k => CBranch cv k (sub k)) (seq 0 (cards cv))) = Ok m.
Proof.
  intros ND NDo Hi. cbn [CnetModel.build]. destruct (Nat.leb_spec (length q) minf) as [L1|L1]; [intros E; left; auto|]. destruct (Nat.ltb_spec (length data) mini) as [L2|L2]; [intros E; left; auto|]. cbn [orb].
  destruct (find (fun v => memb v q) ord) as [cv|] eqn:EF.
  2:{ destruct q as [|v q]; [intros E; cbn in E; left; split; [exact E|cbn in L1; lia]|]. exfalso.
      pose proof (find_none _ _ EF v (Hi v (or_introl eq_refl))) as E. cbv beta in E. assert (memb v (v :: q) = true) as K by (apply memb_In; now left). congruence. }
  assert (F2 : In cv q) by (apply find_some in EF; apply memb_In; apply EF).
  fold (without cv q). destruct (without cv q) as [|r0 rem] eqn:ER.
  - intros E. left. split; [exact E|]. right. right. assert (P := remove_perm cv q ND F2). fold (without cv q) in P. rewrite ER in P. now rewrite (Permutation_length P).
  - rewrite <- ER. intros E.
    destruct (mapR _ _) as [bs|] eqn:EM; cbn [bind] in E; [|discriminate]. right. exists cv, (filter (fun v => memb v (without cv q)) ord).
    destruct (mapR_branches cv (fun k => if Nat.eqb (length (slice data cv k)) 0 then create_leaf [] (without cv q) else build n (slice data cv k) (without cv q)) _ _ EM (seq_NoDup _ _)) as (sub & H & ->).
    exists sub. split; [|split; [reflexivity|split; [exact F2|split; [|exact E]]]].
    + clear -EF NDo. revert EF. induction ord as [|u o IH]; intros EF; [discriminate|]. inversion NDo as [|? ? N NDo']; subst. cbn [find] in EF. cbn [filter].
      destruct (memb u q) eqn:Eu.
      * injection EF as ->. f_equal. 
        assert (memb cv (without cv q) = false) as ->.
        { destruct (memb cv (without cv q)) eqn:K; [|reflexivity]. apply memb_In, without_In in K. tauto. }
        apply filter_ext_in. intros w Hw. apply eq_true_iff_eq. rewrite !memb_In, without_In. split; [|tauto]. intros; split; [tauto|]. intros ->. contradiction.
      * assert (memb u (without cv q) = false) as ->.
        { destruct (memb u (without cv q)) eqn:K; [|reflexivity]. apply memb_In, without_In in K. destruct K as [K _]. apply memb_In in K. congruence. }
        now apply IH.
    + intros k Hk. specialize (H k ltac:(apply in_seq; lia)). destruct (Nat.eqb_spec (length (slice data cv k)) 0) as [Z|Z].
      * left. split; [now apply length_zero_iff_nil|exact H].
      * right. split; [|exact H]. intros K. rewrite K in Z. now apply Z.
Qed.

Lemma build_sem : forall n data q m x, build n data q = Ok m -> NoDup q -> NoDup ord -> incl q ord -> data <> [] -> Forall (discrete cards q) data -> discrete cards q x ->
  exists j avg, reads data q x m (firstn j (filter (fun v => memb v q) ord)) avg.
Proof.
  induction n as [|n IH]; intros data q m x E ND NDo Hi N HD HX; [discriminate|]. destruct (build_first _ _ _ _ ND NDo Hi E) as [[EL SZ]|(cv & ord' & sub & EO & EO' & Hcv & HS & EC)].
  - exists 0%nat, false. cbn [firstn]. right. assert (agreeing x [] data = data) as -> by (apply filter_all; reflexivity). split; [exact N|]. rewrite rest_nil.
    split; [exact SZ|]. destruct (leaf_scope lf oc _ _ _ EL) as (_ & _ & p & Ep & P). exists p. split; [exact Ep|]. intros c Hc. rewrite P. field. apply Rgt_not_eq, length_nonnil, N.
  - destruct (HX cv Hcv) as (k & Hk & Ek). assert (ND' : NoDup (without cv q)) by now apply NoDup_filter.
    assert (IN : 0 < INR (length data)) by now apply length_nonnil. assert (IO : 0 < INR oc) by (apply lt_0_INR; lia).
    assert (Hc : (0 < cards cv)%nat) by lia.
    assert (B0 : forall k', k' <> k -> forall c, cprob oc (CBranch cv k' (sub k')) c x = 0).
    { intros k' Hne c. cbn [cprob]. rewrite Ek. destruct (reqb (INR k) (INR k')) eqn:E1; [apply reqb_spec, INR_eq in E1; congruence|]. lra. }
    assert (B1 : forall c, cprob oc (CBranch cv k (sub k)) c x = cprob oc (sub k) c x).
    { intros c. cbn [cprob]. rewrite Ek. assert (reqb (INR k) (INR k) = true) as -> by now apply reqb_spec. lra. }
    assert (IHk : slice data cv k <> [] -> exists j avg, reads (slice data cv k) (without cv q) x (sub k) (firstn j ord') avg).
    { intros Hs. rewrite EO'. destruct (HS k Hk) as [[K _]|[_ K]]; [contradiction|]. apply (IH _ _ _ _ K ND' NDo).
      - intros v Hv. apply without_In in Hv. apply Hi. tauto.
      - exact Hs.
      - now apply slice_discrete.
      - intros v Hv. apply without_In in Hv. apply HX. tauto. }
    destruct (combine_spec oc (cards cv) (fun k => length (slice data cv k)) (fun k => CBranch cv k (sub k)) Hc Hoc) as [(k0 & Hk0 & P0 & Z0 & Er)|[[Pall Er]|(_ & _ & Er)]];
      cbn zeta in Er; rewrite Er in EC; [| |discriminate]; injection EC as <-.
    + (* a single live branch *)
      destruct (Nat.eq_dec k0 k) as [->|Hne].
      * assert (Lk : length (slice data cv k) = length data).
        { pose proof (counts_total cards q data cv HD Hcv) as T. rewrite (counts_wt cards q data cv k HD Hcv N) in P0.
          assert (W := wt_sum oc (cards cv) (fun k => length (slice data cv k)) Hc Hoc). rewrite lsumR_seq in W.
          rewrite (bsum_single _ _ k Hk) in W by (intros; now apply Z0). rewrite (counts_wt cards q data cv k HD Hcv N) in W.
          apply INR_eq. apply (Rmult_eq_reg_r (/ INR (length data))); [|apply Rinv_neq_0_compat; lra]. unfold Rdiv in W. rewrite W. field. lra. }
        destruct IHk as (j & avg & HR); [intros K; rewrite K in Lk; cbn in Lk; destruct data; [congruence|discriminate]|].
        exists (S j), avg. rewrite EO. cbn [firstn]. unfold reads in *. cbn zeta in *. rewrite (agreeing_cons x cv k _ _ Ek), rest_cons.
        rewrite Lk in HR. destruct HR as [[S0 H]|(S0 & SZ & p & Ep & H)]; [left|right].
        -- split; [exact S0|]. intros c Hc'. now rewrite B1, H.
        -- split; [exact S0|]. split; [exact SZ|]. exists p. split; [exact Ep|]. intros c Hc'. now rewrite B1, H.
      * exists 1%nat, false. rewrite EO. cbn [firstn]. left. rewrite (agreeing_cons x cv k _ _ Ek). split.
        -- assert (Z := Z0 k Hk ltac:(congruence)). rewrite (counts_wt cards q data cv k HD Hcv N) in Z. destruct (slice data cv k) as [|y l] eqn:ES; [reflexivity|].
           exfalso. apply Rmult_integral in Z. destruct Z as [Z|Z]; [apply not_0_INR in Z; [exact Z|discriminate]|]. apply Rinv_neq_0_compat in Z; [exact Z|lra].
        -- intros c _. now apply B0.
    + (* a mixture *)
      assert (NZ : slice data cv k <> []).
      { intros K. specialize (Pall k Hk). rewrite (counts_wt cards q data cv k HD Hcv N), K in Pall. cbn in Pall. lra. }
      destruct (IHk NZ) as (j & avg & HR). exists (S j), true. rewrite EO. cbn [firstn].
      assert (CP : forall c, cprob oc (CMix (map (fun k => wt (cards cv) (fun k => length (slice data cv k)) k / INR oc) (seq 0 (cards cv))) (map (fun k => CBranch cv k (sub k)) (seq 0 (cards cv)))) c x
                   = INR (length (slice data cv k)) / INR (length data) * mean (fun c' => cprob oc (sub k) c' x)).
      { intros c. rewrite (mix_prob oc (fun k => CBranch cv k (sub k)) (fun k => wt (cards cv) (fun k => length (slice data cv k)) k / INR oc)), lsumR_seq.
        rewrite (bsum_single _ _ k Hk).
        - rewrite bsum_scal, (counts_wt cards q data cv k HD Hcv N). unfold CnetSpec.mean. rewrite (bsum_ext oc _ (fun c' => cprob oc (sub k) c' x)) by (intros; apply B1). field. lra.
        - intros i Hi' Hik. rewrite bsum_scal. rewrite (bsum_ext oc _ (fun _ => 0)) by (intros; now apply B0). rewrite bsum_const. lra. }
      assert (IS : 0 < INR (length (slice data cv k))) by now apply length_nonnil.
      unfold reads in *. cbn zeta in *. rewrite (agreeing_cons x cv k _ _ Ek), rest_cons. destruct HR as [[S0 H]|(S0 & SZ & p & Ep & H)]; [left|right].
      * split; [exact S0|]. intros c _. rewrite CP. unfold CnetSpec.mean. rewrite (bsum_ext oc _ (fun _ => 0)) by (intros; now apply H). rewrite bsum_const. lra.
      * split; [exact S0|]. split; [exact SZ|]. exists p. split; [exact Ep|]. intros c Hc'. rewrite CP. unfold CnetSpec.mean at 1. rewrite (bsum_ext oc _ _ (fun c' H' => H c' H')), bsum_scal.
        destruct avg.
        -- rewrite bsum_const. field. lra.
        -- unfold CnetSpec.mean. field. lra.
Qed.

(** *** readiness: no leaf is left without estimation *)
Lemma build_ready : forall n data q m, build n data q = Ok m -> NoDup q -> data <> [] -> Forall (discrete cards q) data ->
  (forall v, (0 < cards v)%nat) -> (forall ass, length (with_values ass data) <> 1%nat) -> cready m = true.
Proof.
  induction n as [|n IH]; intros data q m E ND N HD Hcd H1; [discriminate|]. apply build_cases in E. destruct E as [E|(cv & sub & Hcv & _ & _ & _ & HS & E)].
  - unfold CnetModel.create_leaf in E. destruct (lf data q) as [p|]; cbn [bind] in E; [|discriminate].
    assert (2 <= length data)%nat as L. { specialize (H1 []). cbn [with_values fold_left] in H1. destruct data as [|a [|b l]]; cbn in *; [congruence|congruence|lia]. }
    destruct q as [|v [|u q]]; [discriminate| |]; injection E as <-; [reflexivity|]. apply (proj2 (Nat.leb_le 2 (length data)) L).
  - assert (RB : forall k, (k < cards cv)%nat -> slice data cv k <> [] -> cready (CBranch cv k (sub k)) = true).
    { intros k Hk Hs. cbn [cready]. destruct (HS k Hk) as [[K _]|[_ K]]; [contradiction|]. apply (IH _ _ _ K); [now apply NoDup_filter|exact Hs|now apply slice_discrete|exact Hcd|].
      intros ass. apply (H1 ((cv, k) :: ass)). }
    assert (PN : forall k, 0 < wt (cards cv) (fun k => length (slice data cv k)) k -> slice data cv k <> []).
    { intros k HP K. rewrite (counts_wt cards q data cv k HD Hcv N), K in HP. cbn in HP. lra. }
    destruct (combine_spec oc (cards cv) (fun k => length (slice data cv k)) (fun k => CBranch cv k (sub k)) (Hcd cv) Hoc) as [(k0 & Hk0 & P0 & Z0 & Er)|[[Pall Er]|(_ & _ & Er)]];
      cbn zeta in Er; rewrite Er in E; [| |discriminate]; injection E as <-.
    + apply RB; auto.
    + cbn [cready]. assert (forall l, (forall k, In k l -> (k < cards cv)%nat) ->
        (fix go (l : list cnet) : bool := match l with [] => true | b :: r => (cready b && go r)%bool end) (map (fun k => CBranch cv k (sub k)) l) = true) as G.
      { induction l as [|k l IHl]; intros Hl; [reflexivity|]. cbn [map]. rewrite IHl by (intros; apply Hl; now right). rewrite (RB k) by (try apply PN, Pall; apply Hl; now left). reflexivity. }
      apply G. intros k Hk. apply in_seq in Hk. lia.
Qed.

(** *** success *)
Lemma no_gaps_slice q data v k u : no_gaps cards q data -> no_gaps cards (without u q) (slice data v k).
Proof. intros H ass w Hw. apply without_In in Hw. apply (H ((v, k) :: ass) w). tauto. Qed.
Lemma build_ok : (forall d q, q <> [] -> exists p, lf d q = Ok p) -> (forall v, (0 < cards v)%nat) ->
  forall n data q, (length q < n)%nat -> NoDup q -> q <> [] -> no_gaps cards q data -> exists m, build n data q = Ok m.
Proof.
  intros Hlf Hcd.
  assert (L : forall d q, q <> [] -> exists m, create_leaf d q = Ok m).
  { intros d q Hq. unfold CnetModel.create_leaf. destruct (Hlf d q Hq) as [p ->]. cbn [bind]. destruct q as [|v [|u q]]; [congruence| |]; eauto. }
  induction n as [|n IH]; intros data q Hn ND Hq HG; [lia|]. cbn [CnetModel.build].
  destruct (_ || _)%bool; [now apply L|]. destruct (find _ ord) as [cv|] eqn:EF; [|now apply L]. apply find_some in EF. destruct EF as [F1 F2]. apply memb_In in F2.
  fold (without cv q). destruct (without cv q) as [|r0 rem] eqn:ER; [now apply L|]. rewrite <- ER.
  destruct (mapR_all (fun k => bind (if Nat.eqb (length (slice data cv k)) 0 then create_leaf [] (without cv q) else build n (slice data cv k) (without cv q)) (fun sub => Ok (CBranch cv k sub))) (seq 0 (cards cv))) as [bs Eb].
  { intros k _. assert (exists s, (if Nat.eqb (length (slice data cv k)) 0 then create_leaf [] (without cv q) else build n (slice data cv k) (without cv q)) = Ok s) as [s Es].
    { destruct (Nat.eqb_spec (length (slice data cv k)) 0).
      - apply L. rewrite ER. discriminate.
      - apply IH.
        + assert (P := Permutation_length (remove_perm cv q ND F2)). fold (without cv q) in P. cbn [length] in P. lia.
        + now apply NoDup_filter.
        + rewrite ER. discriminate.
        + now apply no_gaps_slice. }
    rewrite Es. cbn [bind]. eauto. }
  rewrite Eb. cbn [bind]. destruct (mapR_branches cv _ _ _ Eb (seq_NoDup _ _)) as (sub & _ & ->).
  destruct (combine_spec oc (cards cv) (fun k => length (slice data cv k)) (fun k => CBranch cv k (sub k)) (Hcd cv) Hoc) as [(k0 & _ & _ & _ & Er)|[[_ Er]|((z & Hz & Wz) & (i & j & Hi & Hj & Hij & Wi & Wj) & Er)]];
    cbn zeta in Er; try (rewrite Er; eauto). exfalso. unfold wt in *. destruct (Nat.eqb_spec (list_sum (map (fun k => length (slice data cv k)) (seq 0 (cards cv)))) 0) as [T|T].
  - assert (0 < 1 / INR (cards cv)) by (apply Rdiv_lt_0_compat; [lra|apply lt_0_INR; lia]). lra.
  - destruct (HG [] cv F2) as [K|K]; cbn [with_values fold_left] in K.
    + apply Rmult_integral in Wz. destruct Wz as [Wz|Wz]; [|apply Rinv_neq_0_compat in Wz; [exact Wz|now apply not_0_INR]].
      apply (K z Hz). apply length_zero_iff_nil. apply INR_eq. exact Wz.
    + apply Hij, K; try assumption; intros Z; rewrite Z in *; cbn in *; lra.
Qed.
End Sem.

Lemma no_gaps_binary cards q data : (forall v, In v q -> (cards v <= 2)%nat) -> no_gaps cards q data.
Proof.
  intros H ass v Hv. specialize (H v Hv). cbn zeta. set (d := with_values ass data). destruct (slice d v 0) as [|y0 l0] eqn:E0.
  - right. intros i j Hi Hj Si Sj. assert (i = 1%nat) by (destruct i as [|[|]]; [congruence|reflexivity|lia]). assert (j = 1%nat) by (destruct j as [|[|]]; [congruence|reflexivity|lia]). lia.
  - destruct (slice d v 1) as [|y1 l1] eqn:E1.
    + right. intros i j Hi Hj Si Sj. assert (i = 0%nat) by (destruct i as [|[|]]; [reflexivity|congruence|lia]). assert (j = 0%nat) by (destruct j as [|[|]]; [reflexivity|congruence|lia]). lia.
    + left. intros [|[|k]] Hk; [congruence|congruence|lia].
Qed.

(** *** the conditioning order *)
Lemma einsert_perm e v l : Permutation (v :: l) (einsert e v l).
Proof. induction l as [|u l IH]; [reflexivity|]. cbn [einsert]. destruct (rleb (e u) (e v)); [reflexivity|]. rewrite perm_swap. now constructor. Qed.
Lemma naive_order_perm cards data q : Permutation q (naive_order cards data q).
Proof. unfold naive_order. induction q as [|v q IH]; [reflexivity|]. cbn [fold_right]. rewrite <- einsert_perm. now constructor. Qed.
Lemma einsert_sorted e v l : StronglySorted (fun u w => e w <= e u) l -> StronglySorted (fun u w => e w <= e u) (einsert e v l).
Proof.
  induction 1 as [|u l S IH F]; cbn [einsert]; [repeat constructor|]. destruct (rleb (e u) (e v)) eqn:E.
  - apply rleb_spec in E. constructor; [now constructor|]. constructor; [exact E|]. rewrite Forall_forall in *. intros w Hw. specialize (F w Hw). lra.
  - apply rleb_false in E. constructor; [exact IH|]. rewrite Forall_forall in *. intros w Hw. apply (Permutation_in _ (Permutation_sym (einsert_perm e v l))) in Hw. destruct Hw as [<-|Hw]; [lra|now apply F].
Qed.
Lemma naive_order_sorted cards data q : StronglySorted (fun u w => entropy data w (cards w) <= entropy data u (cards u)) (naive_order cards data q).
Proof. unfold naive_order. induction q as [|v q IH]; [constructor|]. cbn [fold_right]. now apply einsert_sorted. Qed.

(** the entropy of the empirical distribution *)
Lemma entropy_spec cards q data v : Forall (discrete cards q) data -> In v q -> data <> [] -> (INR (length data) <= 10 ^ 12) ->
  entropy data v (cards v) = - bsum (cards v) (fun k => let f := INR (length (slice data v k)) / INR (length data) in f * ln f).
Proof.
  intros HD Hv N HN. unfold entropy. assert (IN := length_nonnil data N). destruct (Nat.eqb_spec (length data) 0) as [E|_]; [apply length_zero_iff_nil in E; congruence|]. cbn zeta.
  assert (CT : forall k, count_trunc data v k = length (slice data v k)).
  { intros k. unfold count_trunc. rewrite (slice_value cards q data v k HD Hv). f_equal. apply filter_ext_in. intros x Hx. rewrite Forall_forall in HD. destruct (HD x Hx v Hv) as (j & _ & Ej).
    unfold value_of. now rewrite Ej. }
  assert (T : bsum (cards v) (fun k => INR (count_trunc data v k)) = INR (length data)).
  { rewrite <- (counts_total cards q data v HD Hv). rewrite list_sum_INR, lsumR_seq. apply bsum_ext. intros k _. now rewrite CT. }
  assert (1 <= INR (length data)) as G1. { change 1 with (INR 1). apply le_INR. destruct data; [congruence|cbn; lia]. }
  rewrite T, Rmax_left. 2:{ apply Rle_trans with 1; [|exact G1]. rewrite <- Rinv_1. apply Rinv_le_contravar; lra. }
  f_equal. apply bsum_ext. intros k _. rewrite CT. destruct (Nat.eq_dec (length (slice data v k)) 0) as [Z|Z]; [rewrite Z; cbn [INR]; unfold Rdiv; rewrite !Rmult_0_l; reflexivity|].
  rewrite Rmax_left; [reflexivity|]. apply Rle_trans with (1 / INR (length data)).
  - unfold Rdiv. rewrite Rmult_1_l. apply Rinv_le_contravar; lra.
  - unfold Rdiv. apply Rmult_le_compat_r; [apply Rlt_le, Rinv_0_lt_compat, IN|]. change 1 with (INR 1). apply le_INR. lia.
Qed.

(** *** validation *)
Lemma near_int_INR k : near_int (INR k) = true.
Proof.
  unfold near_int. assert (round (INR k) = INR k) as ->.
  { unfold round. rewrite INR_IZR_INZ. f_equal. symmetry. apply tech_up; rewrite ?INR_IZR_INZ; lra. }
  apply rleb_spec. rewrite Rminus_diag_eq by reflexivity. rewrite Rabs_R0. assert (0 < / 10 ^ 8) by (apply Rinv_0_lt_compat; lra). assert (0 <= / 10 ^ 5 * Rabs (INR k)); [|lra].
  apply Rmult_le_pos; [apply Rlt_le, Rinv_0_lt_compat; lra|apply Rabs_pos].
Qed.
Lemma validate_ok D cards q data : data <> [] -> Forall (discrete cards q) data -> Forall (fun x => forall v, (v < D)%nat -> x v <> None) data -> validate D cards q data = true.
Proof.
  intros N HD HC. rewrite Forall_forall in *. unfold validate. apply andb_true_iff. split; apply forallb_forall.
  - intros x Hx. apply forallb_forall. intros v Hv. apply in_seq in Hv. specialize (HC x Hx v ltac:(lia)). destruct (x v); [reflexivity|congruence].
  - intros v Hv. apply andb_true_iff. split; [destruct data; [congruence|reflexivity]|]. apply forallb_forall. intros x Hx. destruct (HD x Hx v Hv) as (k & Hk & ->).
    rewrite near_int_INR. assert (rleb 0 (INR k) = true) as -> by (apply rleb_spec, pos_INR). assert (rleb (INR (cards v)) (INR k) = false) as ->; [|reflexivity].
    apply rleb_false. now apply lt_INR.
Qed.
Lemma validate_inv D cards q data : validate D cards q data = true ->
  (q <> [] -> data <> []) /\ Forall (fun x => (forall v, (v < D)%nat -> x v <> None) /\ forall v, In v q -> exists a, x v = Some a /\ 0 <= a < INR (cards v)) data.
Proof.
  unfold validate. rewrite andb_true_iff, !forallb_forall. intros [A B]. split.
  - intros Hq. destruct q as [|v q]; [congruence|]. specialize (B v (or_introl eq_refl)). apply andb_true_iff in B. destruct B as [B _]. destruct data; [discriminate|discriminate].
  - apply Forall_forall. intros x Hx. split.
    + intros v Hv. specialize (A x Hx). rewrite forallb_forall in A. specialize (A v ltac:(apply in_seq; lia)). destruct (x v); [discriminate|discriminate].
    + intros v Hv. specialize (B v Hv). apply andb_true_iff in B. destruct B as [_ B]. rewrite forallb_forall in B. specialize (B x Hx). destruct (x v) as [a|]; [|discriminate].
      exists a. split; [reflexivity|]. apply andb_true_iff in B. destruct B as [B B3]. apply andb_true_iff in B. destruct B as [_ B2]. apply rleb_spec in B2. apply negb_true_iff, rleb_false in B3. lra.
Qed.
