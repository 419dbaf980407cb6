(** learn_cnet: the recursion. *)
From Coq Require Import List Arith ZArith Bool Reals Lia Lra Permutation Sorted.
From Verif Require Import Base ScopeModel ScopeProofs CircuitModel Integral LearnModel LearnTop SignedModel SignedProofs CnetModel CnetSpec CnetProofs.
Import ListNotations.
Local Open Scope R_scope.

Lemma mapR_branches cv (h : nat -> result cnet) : forall l bs, mapR (fun k => bind (h k) (fun sub => Ok (CBranch cv k sub))) l = Ok bs -> NoDup l ->
  exists sub, (forall k, In k l -> h k = Ok (sub k)) /\ bs = map (fun k => CBranch cv k (sub k)) l.
Proof.
  induction l as [|k l IH]; intros bs E ND; cbn in E; [injection E as <-; exists (fun _ => CMix [] []); split; [intros k []|reflexivity]|].
  destruct (h k) as [s|] eqn:Ek; cbn in E; [|discriminate]. fold (mapR (fun k => bind (h k) (fun sub => Ok (CBranch cv k sub)))) in E.
  destruct (mapR _ l) as [bs'|] eqn:El; cbn in E; [|discriminate]. injection E as <-. inversion ND as [|? ? N ND']; subst.
  destruct (IH _ eq_refl ND') as (sub & H & ->). exists (fun j => if Nat.eqb j k then s else sub j). split.
  - intros j [<-|Hj]; [now rewrite Nat.eqb_refl|]. destruct (Nat.eqb_spec j k) as [->|]; [contradiction|]. now apply H.
  - cbn. rewrite Nat.eqb_refl. f_equal. apply map_ext_in. intros j Hj. destruct (Nat.eqb_spec j k) as [->|]; [contradiction|reflexivity].
Qed.

Section Cnet.
Variables (lf : dataset -> list nat -> result (nat -> row -> R)) (cards : nat -> nat) (oc minf mini : nat) (ord : list nat).
Notation build := (build lf cards oc minf mini ord).
Notation create_leaf := (create_leaf lf).
Definition without (cv : nat) (q : list nat) : list nat := filter (fun v => negb (Nat.eqb v cv)) q.
Lemma without_In cv q v : In v (without cv q) <-> In v q /\ v <> cv.
Proof. unfold without. rewrite filter_In, negb_true_iff, Nat.eqb_neq. reflexivity. Qed.

Lemma build_cases n data q m : build (S n) data q = Ok m ->
  create_leaf data q = Ok m \/
  exists cv sub, In cv q /\ In cv ord /\ without cv q <> [] /\ (mini <= length data)%nat /\
    (forall k, (k < cards cv)%nat -> (slice data cv k = [] /\ create_leaf [] (without cv q) = Ok (sub k)) \/
                                     (slice data cv k <> [] /\ build n (slice data cv k) (without cv q) = Ok (sub k))) /\
    combine_branches oc (map (fun k => length (slice data cv k)) (seq 0 (cards cv))) (map (fun k => CBranch cv k (sub k)) (seq 0 (cards cv))) = Ok m.
Proof.
  cbn [CnetModel.build]. destruct (Nat.leb_spec (length q) minf) as [_|L1]; [intros E; now left|]. destruct (Nat.ltb_spec (length data) mini) as [_|L2]; [intros E; now left|]. cbn [orb].
  destruct (find (fun v => memb v q) ord) as [cv|] eqn:EF; [|intros E; now left]. apply find_some in EF. destruct EF as [F1 F2]. apply memb_In in F2.
  fold (without cv q). destruct (without cv q) as [|r0 rem] eqn:ER; [intros E; now left|]. rewrite <- ER. intros E.
  destruct (mapR _ _) as [bs|] eqn:EM; cbn [bind] in E; [|discriminate]. right. exists cv.
  destruct (mapR_branches cv (fun k => if Nat.eqb (length (slice data cv k)) 0 then create_leaf [] (without cv q) else build n (slice data cv k) (without cv q)) _ _ EM (seq_NoDup _ _)) as (sub & H & ->).
  exists sub. split; [exact F2|]. split; [exact F1|]. split; [rewrite ER; discriminate|]. split; [exact L2|]. split; [|exact E].
  intros k Hk. specialize (H k ltac:(apply in_seq; lia)). destruct (Nat.eqb_spec (length (slice data cv k)) 0) as [Z|Z].
  - left. split; [now apply length_zero_iff_nil|exact H].
  - right. split; [|exact H]. intros K. rewrite K in Z. now apply Z.
Qed.
Lemma leaf_scope data q m : create_leaf data q = Ok m -> q <> [] /\ cscope m = q /\ exists p, lf data q = Ok p /\ forall c x, cprob oc m c x = p c x.
Proof.
  unfold CnetModel.create_leaf. destruct (lf data q) as [p|]; cbn [bind]; [|discriminate]. destruct q as [|v [|u q]]; intros E; [discriminate| |]; injection E as <-;
    (split; [discriminate|split; [reflexivity|exists p; split; [reflexivity|reflexivity]]]).
Qed.

(** the branches: probability of the combination *)
Lemma mix_prob (f : nat -> cnet) (w : nat -> R) c x : forall l,
  cprob oc (CMix (map w l) (map f l)) c x = lsumR (map (fun k => bsum oc (fun c' => w k * cprob oc (f k) c' x)) l).
Proof. induction l as [|k l IH]; [reflexivity|]. cbn [map lsumR]. rewrite <- IH. reflexivity. Qed.

Definition perm_of (q q' : list nat) : Prop := NoDup q' /\ forall v, In v q' <-> In v q.

Lemma build_scope : forall n data q m, build n data q = Ok m -> NoDup q -> NoDup (cscope m) /\ forall v, In v (cscope m) <-> In v q.
Proof.
  induction n as [|n IH]; intros data q m E ND; [discriminate|]. apply build_cases in E.
  assert (L : forall d q m, create_leaf d q = Ok m -> NoDup q -> NoDup (cscope m) /\ forall v, In v (cscope m) <-> In v q).
  { intros d q0 m0 E0 ND0. destruct (leaf_scope _ _ _ E0) as (_ & -> & _). split; [exact ND0|reflexivity]. }
  destruct E as [E|(cv & sub & Hcv & _ & _ & _ & HS & E)]; [now apply (L data)|].
  assert (ND' : NoDup (without cv q)) by now apply NoDup_filter.
  assert (SB : forall k, (k < cards cv)%nat -> NoDup (cscope (CBranch cv k (sub k))) /\ forall v, In v (cscope (CBranch cv k (sub k))) <-> In v q).
  { intros k Hk. assert (NoDup (cscope (sub k)) /\ forall v, In v (cscope (sub k)) <-> In v (without cv q)) as [A B].
    { destruct (HS k Hk) as [[_ K]|[_ K]]; [now apply (L [])|now apply (IH _ _ _ K)]. }
    cbn [cscope]. split; [constructor; [rewrite B, without_In; tauto|exact A]|]. intros v. cbn [In]. rewrite B, without_In.
    destruct (Nat.eq_dec v cv) as [->|]; [tauto|]. split; [intros [?|?]; [congruence|tauto]|tauto]. }
  unfold combine_branches in E. destruct (filter _ _) as [|[b w] l] eqn:EF.
  - destruct (_ && _)%bool eqn:EX; [|discriminate]. apply andb_true_iff in EX. destruct EX as [_ EX]. injection E as <-. cbn [cscope].
    destruct (cards cv) as [|K]; [discriminate|]. cbn [seq map]. apply SB. lia.
  - assert (In (b, w) (combine (map (fun k => CBranch cv k (sub k)) (seq 0 (cards cv))) (branch_weights (map (fun k => length (slice data cv k)) (seq 0 (cards cv)))))) as Hb.
    { assert (In (b, w) ((b, w) :: l)) as K by now left. rewrite <- EF in K. apply filter_In in K. apply K. }
    destruct l as [|? ?].
    + injection E as <-. apply in_combine_l, in_map_iff in Hb. destruct Hb as (k & <- & Hk). apply in_seq in Hk. apply SB. lia.
    + destruct (_ && _)%bool eqn:EX; [|discriminate]. apply andb_true_iff in EX. destruct EX as [_ EX]. injection E as <-. cbn [cscope].
      destruct (cards cv) as [|K]; [discriminate|]. cbn [seq map]. apply SB. lia.
Qed.

Hypothesis Hoc : (1 <= oc)%nat.

(** *** normalisation *)
Hypothesis Hcards : forall v, (0 < cards v)%nat.
Hypothesis Hlf : forall d q p, lf d q = Ok p -> NoDup q -> forall c x, (c < oc)%nat -> dsum cards q (p c) x = 1.

Lemma build_normalised : forall n data q m, build n data q = Ok m -> NoDup q -> forall c x, (c < oc)%nat -> dsum cards q (cprob oc m c) x = 1.
Proof.
  induction n as [|n IH]; intros data q m E ND c x Hc; [discriminate|]. apply build_cases in E.
  assert (L : forall d q m, create_leaf d q = Ok m -> NoDup q -> forall c x, (c < oc)%nat -> dsum cards q (cprob oc m c) x = 1).
  { intros d q0 m0 E0 ND0 c0 x0 Hc0. destruct (leaf_scope _ _ _ E0) as (_ & _ & p & Ep & P). rewrite <- (Hlf _ _ _ Ep ND0 c0 x0 Hc0).
    apply dsum_ext. intros. apply P. }
  destruct E as [E|(cv & sub & Hcv & _ & _ & _ & HS & E)]; [now apply (L data)|].
  assert (ND' : NoDup (without cv q)) by now apply NoDup_filter.
  assert (BR : forall k c x, (k < cards cv)%nat -> (c < oc)%nat -> dsum cards q (cprob oc (CBranch cv k (sub k)) c) x = 1).
  { intros k c0 x0 Hk Hc0. rewrite (dsum_perm cards _ _ (remove_perm cv q ND Hcv) ND). fold (without cv q). cbn [dsum].
    rewrite (bsum_single _ _ k Hk).
    - transitivity (dsum cards (without cv q) (cprob oc (sub k) c0) (upd x0 cv (Some (INR k)))).
      + apply dsum_ext. intros y Hy. cbn [cprob]. rewrite (Hy cv) by (rewrite without_In; tauto). rewrite upd_same.
        assert (reqb (INR k) (INR k) = true) as -> by now apply reqb_spec. lra.
      + destruct (HS k Hk) as [[_ K]|[_ K]]; [now apply (L [])|now apply (IH _ _ _ K)].
    - intros i Hi Hik. transitivity (dsum cards (without cv q) (fun y => 0 * 1) (upd x0 cv (Some (INR i)))).
      + apply dsum_ext. intros y Hy. cbn [cprob]. rewrite (Hy cv) by (rewrite without_In; tauto). rewrite upd_same.
        destruct (reqb (INR i) (INR k)) eqn:E1; [apply reqb_spec in E1; apply INR_eq in E1; congruence|]. lra.
      + rewrite dsum_scal. lra. }
  destruct (combine_spec oc (cards cv) (fun k => length (slice data cv k)) (fun k => CBranch cv k (sub k)) (Hcards cv) Hoc) as [(k & Hk & _ & _ & Er)|[[_ Er]|(_ & _ & Er)]];
    cbn zeta in Er; rewrite Er in E; [injection E as <-; now apply BR| |discriminate].
  injection E as <-. set (w := fun k => wt (cards cv) (fun k => length (slice data cv k)) k / INR oc).
  transitivity (dsum cards q (fun y => bsum (cards cv) (fun k => bsum oc (fun c' => w k * cprob oc (CBranch cv k (sub k)) c' y))) x).
  { apply dsum_ext. intros y _. fold w. rewrite (mix_prob (fun k => CBranch cv k (sub k)) w). apply lsumR_seq. }
  rewrite dsum_bsum. transitivity (bsum (cards cv) (fun k => wt (cards cv) (fun k => length (slice data cv k)) k)).
  - apply bsum_ext. intros k Hk. rewrite dsum_bsum. transitivity (bsum oc (fun c' => w k)).
    + apply bsum_ext. intros c' Hc'. rewrite dsum_scal, BR by assumption. lra.
    + rewrite bsum_const. unfold w. field. apply not_0_INR. lia.
  - rewrite <- lsumR_seq. apply (wt_sum oc); [apply Hcards|exact Hoc].
Qed.
End Cnet.
