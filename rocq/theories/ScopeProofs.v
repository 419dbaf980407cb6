From Coq Require Import List ZArith Arith Bool Lia Sorted Permutation.
From Verif Require Import Base ScopeModel.
Import ListNotations.

Lemma memb_In v l : memb v l = true <-> In v l.
Proof.
  unfold memb. rewrite existsb_exists. split.
  - intros (x & Hx & E). apply Nat.eqb_eq in E. now subst.
  - intros H. exists v. split; [assumption|apply Nat.eqb_refl].
Qed.

Lemma memb_false v l : memb v l = false <-> ~ In v l.
Proof. rewrite <- memb_In. destruct (memb v l); split; congruence || tauto. Qed.

Lemma disjb_spec a b : disjb a b = true <-> (forall v, In v a -> ~ In v b).
Proof.
  unfold disjb. rewrite forallb_forall. split; intros H v Hv.
  - apply H in Hv. rewrite negb_true_iff in Hv. now apply memb_false.
  - rewrite negb_true_iff. apply memb_false; auto.
Qed.

Lemma disjb_false a b : disjb a b = false <-> exists v, In v a /\ In v b.
Proof.
  split.
  - intros H. unfold disjb in H.
    induction a as [|x a IH]; cbn in H; [discriminate|].
    destruct (memb x b) eqn:E; cbn in H.
    + exists x. split; [now left|now apply memb_In].
    + destruct (IH H) as (v & Hv & Hb). exists v; split; [now right|assumption].
  - intros (v & Ha & Hb). destruct (disjb a b) eqn:E; [|reflexivity].
    rewrite disjb_spec in E. exfalso; eapply E; eauto.
Qed.

Lemma subb_spec a b : subb a b = true <-> incl a b.
Proof.
  unfold subb, incl. rewrite forallb_forall.
  split; intros H v Hv; [apply memb_In|apply memb_In]; auto.
Qed.

Lemma set_eqb_spec a b : set_eqb a b = true <-> (forall v, In v a <-> In v b).
Proof.
  unfold set_eqb. rewrite andb_true_iff, !subb_spec. unfold incl. firstorder.
Qed.

Lemma has_dup_false l : has_dup l = false <-> NoDup l.
Proof.
  unfold has_dup. rewrite negb_false_iff, Nat.eqb_eq. split.
  - intros H.
    assert (forall l : list nat, length (nodup Nat.eq_dec l) <= length l /\
              (length l = length (nodup Nat.eq_dec l) -> NoDup l)) as G.
    { clear. induction l as [|x l [IH1 IH2]]; cbn; [split; [lia|constructor]|].
      destruct (in_dec Nat.eq_dec x l) as [Hi|Hi]; cbn.
      - split; lia.
      - split; [lia|]. intros H. constructor; [assumption|apply IH2; lia]. }
    now apply G.
  - intros H. now rewrite nodup_fixed_point.
Qed.

(** What a Scope object must satisfy. *)
Definition valid (s : scope) : Prop :=
  NoDup (query s) /\ NoDup (evidence s) /\
  (forall v, In v (query s) -> ~ In v (evidence s)) /\
  (query s = [] -> evidence s = []).

Lemma scope_init_nat_ok q e s :
  scope_init_nat q e = Ok s <-> s = mkScope q e /\ valid (mkScope q e).
Proof.
  unfold scope_init_nat, valid. cbn [query evidence].
  destruct (Nat.eqb_spec (length q) 0) as [Hq|Hq]; destruct (Nat.eqb_spec (length e) 0) as [He|He]; cbn.
  all: try (split; [discriminate|intros (_ & _ & _ & _ & H); apply length_zero_iff_nil in Hq; rewrite (H Hq) in He; cbn in He; lia]).
  all: destruct (has_dup q) eqn:Dq; [split; [discriminate|intros (_ & H & _); apply has_dup_false in H; congruence]|].
  all: destruct (has_dup e) eqn:De; [split; [discriminate|intros (_ & _ & H & _); apply has_dup_false in H; congruence]|].
  all: destruct (disjb q e) eqn:D; cbn.
  all: try (split; [discriminate|intros (_ & _ & _ & H & _); apply disjb_spec in H; congruence]).
  all: apply has_dup_false in Dq; apply has_dup_false in De.
  all: split; [intros E; injection E as <-|intros (-> & _); reflexivity].
  all: (split; [reflexivity|]); (split; [assumption|]); (split; [assumption|]); (split; [now apply disjb_spec|]).
  all: try (apply length_zero_iff_nil in He; intros; assumption).
  intros ->; cbn in Hq; lia.
Qed.

Lemma scope_init_nat_err q e : ~ valid (mkScope q e) -> scope_init_nat q e = Err.
Proof.
  intros H. destruct (scope_init_nat q e) as [s|] eqn:E; [|reflexivity].
  apply scope_init_nat_ok in E. destruct E as [_ E]. contradiction.
Qed.

Definition validZ (q e : list Z) : Prop :=
  (forall v, In v q -> (0 <= v)%Z) /\ (forall v, In v e -> (0 <= v)%Z) /\
  NoDup q /\ NoDup e /\ (forall v, In v q -> ~ In v e) /\ (q = [] -> e = []).

Lemma map_Zto_inv (l : list Z) : (forall v, In v l -> (0 <= v)%Z) -> map Z.of_nat (map Z.to_nat l) = l.
Proof.
  intros H. induction l as [|x l IH]; cbn; [reflexivity|].
  rewrite IH by (intros; apply H; now right).
  rewrite Z2Nat.id; [reflexivity|apply H; now left].
Qed.

Lemma existsb_neg_false (l : list Z) : existsb (fun v => Z.ltb v 0) l = false <-> (forall v, In v l -> (0 <= v)%Z).
Proof.
  split.
  - intros H v Hv. destruct (Z.ltb_spec v 0) as [L|L]; [|assumption].
    assert (existsb (fun v => Z.ltb v 0) l = true) by (apply existsb_exists; exists v; split; [assumption|now apply Z.ltb_lt]).
    congruence.
  - intros H. destruct (existsb _ l) eqn:E; [|reflexivity].
    apply existsb_exists in E. destruct E as (v & Hv & L). apply Z.ltb_lt in L. apply H in Hv. lia.
Qed.

Lemma NoDup_map_of_nat l : NoDup (map Z.of_nat l) <-> NoDup l.
Proof.
  split; [apply NoDup_map_inv|].
  intros H. induction H as [|x l Hx Hl IH]; cbn; constructor; [|assumption].
  intros Hin. apply in_map_iff in Hin. destruct Hin as (y & E & Hy). apply Nat2Z.inj in E. congruence.
Qed.

Lemma In_map_of_nat v l : In (Z.of_nat v) (map Z.of_nat l) <-> In v l.
Proof.
  rewrite in_map_iff. split.
  - intros (y & E & Hy). apply Nat2Z.inj in E. congruence.
  - intros H; exists v; auto.
Qed.

Lemma validZ_of_nat q e : validZ (map Z.of_nat q) (map Z.of_nat e) <-> valid (mkScope q e).
Proof.
  unfold validZ, valid; cbn [query evidence]. rewrite !NoDup_map_of_nat.
  split.
  - intros (_ & _ & H1 & H2 & H3 & H4). repeat split; auto.
    + intros v Hv He. apply (H3 (Z.of_nat v)); now apply In_map_of_nat.
    + intros ->. cbn in H4. specialize (H4 eq_refl). destruct e; [reflexivity|discriminate].
  - intros (H1 & H2 & H3 & H4). repeat split; auto.
    + intros v Hv. apply in_map_iff in Hv. destruct Hv as (? & <- & _). lia.
    + intros v Hv. apply in_map_iff in Hv. destruct Hv as (? & <- & _). lia.
    + intros v Hv He. apply in_map_iff in Hv. destruct Hv as (w & <- & Hw).
      apply (H3 w Hw). now apply In_map_of_nat.
    + intros E. destruct q; [|discriminate]. rewrite H4; reflexivity.
Qed.

Lemma scope_init_spec q e :
  (validZ q e -> exists s, scope_init q e = Ok s /\ map Z.of_nat (query s) = q /\ map Z.of_nat (evidence s) = e)
  /\ (~ validZ q e -> scope_init q e = Err).
Proof.
  unfold scope_init.
  destruct (Nat.eqb (length q) 0 && negb (Nat.eqb (length e) 0)) eqn:G.
  { apply andb_true_iff in G. destruct G as [G1 G2]. apply Nat.eqb_eq in G1. rewrite negb_true_iff in G2. apply Nat.eqb_neq in G2.
    split; [|reflexivity]. intros (_ & _ & _ & _ & _ & H). apply length_zero_iff_nil in G1. rewrite (H G1) in G2. now cbn in G2. }
  destruct (existsb (fun v => Z.ltb v 0) q) eqn:Nq.
  { split; [|reflexivity]. intros (H & _). apply existsb_neg_false in H. congruence. }
  destruct (existsb (fun v => Z.ltb v 0) e) eqn:Ne.
  { split; [|reflexivity]. intros (_ & H & _). apply existsb_neg_false in H. congruence. }
  pose proof (proj1 (existsb_neg_false q) Nq) as Nq0. pose proof (proj1 (existsb_neg_false e) Ne) as Ne0. clear Nq Ne.
  pose proof (validZ_of_nat (map Z.to_nat q) (map Z.to_nat e)) as V.
  rewrite !map_Zto_inv in V by assumption.
  split.
  - intros H. apply V in H. exists (mkScope (map Z.to_nat q) (map Z.to_nat e)).
    split; [now apply scope_init_nat_ok|]. cbn. now rewrite !map_Zto_inv.
  - intros H. apply scope_init_nat_err. intros C. apply H. now apply V.
Qed.

(** sortu *)
Lemma insu_In x y l : In y (insu x l) <-> y = x \/ In y l.
Proof.
  induction l as [|z l IH]; cbn.
  - split; intros [H|H]; auto.
  - destruct (Nat.ltb x z).
    + cbn. split; intros [H|H]; auto.
    + destruct (Nat.eqb_spec x z) as [->|].
      * cbn. split; [tauto|]. intros [->|H]; auto.
      * cbn. rewrite IH. tauto.
Qed.

Lemma sortu_In y l : In y (sortu l) <-> In y l.
Proof.
  induction l as [|x l IH]; cbn; [tauto|]. rewrite insu_In, IH.
  split; intros [H|H]; auto.
Qed.

Lemma insu_sorted x l : StronglySorted lt l -> StronglySorted lt (insu x l).
Proof.
  induction l as [|z l IH]; cbn; intros H; [constructor; constructor|].
  inversion H as [|? ? Hs Hf]; subst.
  destruct (Nat.ltb_spec x z) as [L|L].
  - constructor; [assumption|]. constructor; [assumption|].
    eapply Forall_impl; [|exact Hf]. cbn; intros; lia.
  - destruct (Nat.eqb_spec x z) as [->|N]; [assumption|].
    constructor; [now apply IH|]. apply Forall_forall. intros y Hy. apply insu_In in Hy.
    destruct Hy as [->|Hy]; [lia|]. rewrite Forall_forall in Hf. now apply Hf.
Qed.

Lemma sortu_sorted l : StronglySorted lt (sortu l).
Proof. induction l as [|x l IH]; cbn; [constructor|now apply insu_sorted]. Qed.

Lemma ssorted_NoDup l : StronglySorted lt l -> NoDup l.
Proof.
  induction 1 as [|x l H IH Hf]; constructor; [|assumption].
  intros Hin. rewrite Forall_forall in Hf. apply Hf in Hin. lia.
Qed.

Lemma ssorted_ext l1 l2 :
  StronglySorted lt l1 -> StronglySorted lt l2 -> (forall v, In v l1 <-> In v l2) -> l1 = l2.
Proof.
  revert l2. induction l1 as [|x l1 IH]; intros l2 H1 H2 E.
  - destruct l2 as [|y l2]; [reflexivity|]. exfalso. apply (E y). now left.
  - destruct l2 as [|y l2]; [exfalso; apply (E x); now left|].
    inversion H1 as [|? ? S1 F1]; inversion H2 as [|? ? S2 F2]; subst.
    rewrite Forall_forall in F1, F2.
    assert (x = y) as ->.
    { destruct (proj1 (E x) (or_introl eq_refl)) as [->|Hx]; [reflexivity|].
      destruct (proj2 (E y) (or_introl eq_refl)) as [->|Hy]; [reflexivity|].
      apply F2 in Hx. apply F1 in Hy. lia. }
    f_equal. apply IH; [assumption|assumption|].
    intros v. split; intros Hv.
    + destruct (proj1 (E v) (or_intror Hv)) as [->|]; [|assumption]. apply F1 in Hv. lia.
    + destruct (proj2 (E v) (or_intror Hv)) as [->|]; [|assumption]. apply F2 in Hv. lia.
Qed.

Lemma sortu_ext a b : (forall v, In v a <-> In v b) -> sortu a = sortu b.
Proof.
  intros H. apply ssorted_ext; try apply sortu_sorted. intros v. now rewrite !sortu_In.
Qed.

Lemma sortu_nil l : sortu l = [] <-> l = [].
Proof.
  split; [|intros ->; reflexivity]. intros H. destruct l as [|x l]; [reflexivity|].
  assert (In x (sortu (x :: l))) as Hx by (apply sortu_In; now left). rewrite H in Hx. destruct Hx.
Qed.

(** join *)
Definition join_of (a b : scope) : scope :=
  mkScope (sortu (query a ++ query b))
          (sortu (filter (fun v => negb (memb v (query a ++ query b))) (evidence a ++ evidence b))).

Lemma join_ok a b : valid a -> valid b -> join a b = Ok (join_of a b) /\ valid (join_of a b).
Proof.
  intros (A1 & A2 & A3 & A4) (B1 & B2 & B3 & B4).
  assert (valid (join_of a b)) as V.
  { unfold valid, join_of; cbn [query evidence].
    split; [apply ssorted_NoDup, sortu_sorted|].
    split; [apply ssorted_NoDup, sortu_sorted|]. split.
    - intros v Hq He. rewrite sortu_In in *. apply filter_In in He.
      destruct He as [_ He]. rewrite negb_true_iff in He. now apply memb_false in He.
    - intros H. apply (proj1 (sortu_nil _)) in H. apply app_eq_nil in H. destruct H as [H1 H2].
      rewrite A4, B4 by assumption. reflexivity. }
  split; [|assumption]. unfold join. now apply scope_init_nat_ok.
Qed.

Lemma join_of_query a b v : In v (query (join_of a b)) <-> In v (query a) \/ In v (query b).
Proof. unfold join_of; cbn. now rewrite sortu_In, in_app_iff. Qed.

Lemma join_of_evidence a b v :
  In v (evidence (join_of a b)) <->
  (In v (evidence a) \/ In v (evidence b)) /\ ~ In v (query a) /\ ~ In v (query b).
Proof.
  unfold join_of; cbn. rewrite sortu_In, filter_In, in_app_iff, negb_true_iff, memb_false, in_app_iff. tauto.
Qed.

Lemma scope_ext s t :
  StronglySorted lt (query s) -> StronglySorted lt (query t) ->
  StronglySorted lt (evidence s) -> StronglySorted lt (evidence t) ->
  (forall v, In v (query s) <-> In v (query t)) ->
  (forall v, In v (evidence s) <-> In v (evidence t)) -> s = t.
Proof.
  destruct s, t; cbn. intros. f_equal; apply ssorted_ext; assumption.
Qed.

Lemma join_of_sorted a b :
  StronglySorted lt (query (join_of a b)) /\ StronglySorted lt (evidence (join_of a b)).
Proof. split; apply sortu_sorted. Qed.

Lemma join_of_comm a b : join_of a b = join_of b a.
Proof.
  apply scope_ext; try apply join_of_sorted; intros v; rewrite ?join_of_query, ?join_of_evidence; tauto.
Qed.

Lemma join_of_assoc a b c : join_of (join_of a b) c = join_of a (join_of b c).
Proof.
  apply scope_ext; try apply join_of_sorted; intros v;
  repeat (rewrite join_of_query || rewrite join_of_evidence); tauto.
Qed.

Lemma scope_eqb_spec s t :
  scope_eqb s t = true <->
  (forall v, In v (query s) <-> In v (query t)) /\ (forall v, In v (evidence s) <-> In v (evidence t)).
Proof. unfold scope_eqb, equal_query, equal_evidence. now rewrite andb_true_iff, !set_eqb_spec. Qed.

Lemma join_of_idem a : valid a -> scope_eqb (join_of a a) a = true.
Proof.
  intros (A1 & A2 & A3 & A4). apply scope_eqb_spec.
  split; intros v; rewrite ?join_of_query, ?join_of_evidence; [tauto|].
  split; [tauto|]. intros H. split; [now left|]. split; intros C; now apply (A3 v).
Qed.

Lemma join_from_ok l : forall acc, valid acc -> Forall valid l ->
  exists s, join_from acc l = Ok s /\ valid s /\
    (forall v, In v (query s) <-> In v (query acc) \/ exists t, In t l /\ In v (query t)) /\
    (forall v, In v (evidence s) <->
       (In v (evidence acc) \/ exists t, In t l /\ In v (evidence t)) /\ ~ In v (query s)).
Proof.
  induction l as [|x l IH]; intros acc Ha Hl; cbn.
  - exists acc. split; [reflexivity|]. split; [assumption|]. split; intros v.
    + split; [now left|]. intros [H|(t & [] & _)]; assumption.
    + destruct Ha as (_ & _ & D & _). split.
      * intros H. split; [now left|]. intros C. now apply (D v).
      * intros [[H|(t & [] & _)] _]; assumption.
  - inversion Hl as [|? ? Hx Hl']; subst.
    destruct (join_ok acc x Ha Hx) as [E V]. rewrite E. cbn.
    destruct (IH (join_of acc x) V Hl') as (s & Es & Vs & Q & Ev).
    exists s. split; [assumption|]. split; [assumption|]. split; intros v.
    + rewrite Q, join_of_query. split.
      * intros [[H|H]|(t & Ht & H)]; [now left| right; exists x; auto | right; exists t; auto].
      * intros [H|(t & [<-|Ht] & H)]; [auto|auto|right; exists t; auto].
    + rewrite Ev, join_of_evidence. split.
      * intros [[[[H|H] _]|(t & Ht & H)] Hn]; (split; [|assumption]); [now left|right; exists x; auto|right; exists t; auto].
      * intros [H Hn]. split; [|assumption].
        assert (~ In v (query acc) /\ ~ In v (query x)) as [N1 N2].
        { split; intros C; apply Hn, Q; left; apply join_of_query; auto. }
        destruct H as [H|(t & [<-|Ht] & H)]; [left; auto|left; auto|right; exists t; auto].
Qed.

Lemma join_all_ok l : l <> [] -> Forall valid l ->
  exists s, join_all l = Ok s /\ valid s /\
    (forall v, In v (query s) <-> exists t, In t l /\ In v (query t)) /\
    (forall v, In v (evidence s) <-> (exists t, In t l /\ In v (evidence t)) /\ ~ In v (query s)).
Proof.
  destruct l as [|x l]; [congruence|]. intros _ H. inversion H as [|? ? Hx Hl]; subst.
  destruct (join_from_ok l x Hx Hl) as (s & E & V & Q & Ev).
  exists s. split; [assumption|]. split; [assumption|]. split; intros v.
  - rewrite Q. split.
    + intros [A|(t & Ht & A)]; [exists x; cbn; auto|exists t; cbn; auto].
    + intros (t & [<-|Ht] & A); [now left|right; exists t; auto].
  - rewrite Ev. split.
    + intros [[A|(t & Ht & A)] N]; (split; [|assumption]); [exists x; cbn; auto|exists t; cbn; auto].
    + intros [(t & [<-|Ht] & A) N]; (split; [|assumption]); [now left|right; exists t; auto].
Qed.

(** pairwise disjointness *)
Definition disjoint_scopes (s t : scope) : Prop := forall v, In v (query s) -> ~ In v (query t).

Lemma apd_loop_spec l : forall o, valid o -> Forall valid l ->
  exists b, apd_loop (Some o) l = Ok b /\
    (b = true <-> Forall (disjoint_scopes o) l /\ ForallOrdPairs disjoint_scopes l).
Proof.
  induction l as [|x l IH]; intros o Ho Hl; cbn.
  - exists true. split; [reflexivity|]. split; [intros _; split; constructor|reflexivity].
  - inversion Hl as [|? ? Hx Hl']; subst.
    unfold isdisjoint. destruct (disjb (query o) (query x)) eqn:D.
    + destruct (join_ok o x Ho Hx) as [E V]. rewrite E; cbn.
      destruct (IH (join_of o x) V Hl') as (b & Eb & Hb). exists b. split; [assumption|].
      rewrite Hb. rewrite disjb_spec in D. split.
      * intros [F P]. rewrite Forall_forall in F. split.
        -- constructor; [assumption|]. apply Forall_forall. intros t Ht v Hv Hv'.
           apply (F t Ht v); [apply join_of_query; now left|assumption].
        -- constructor; [|assumption]. apply Forall_forall. intros t Ht v Hv Hv'.
           apply (F t Ht v); [apply join_of_query; now right|assumption].
      * intros [F P]. inversion F as [|? ? _ F']; inversion P as [|? ? Px P']; subst.
        split; [|assumption]. rewrite Forall_forall in *. intros t Ht v Hv Hv'.
        apply join_of_query in Hv. destruct Hv as [Hv|Hv]; [now apply (F' t Ht v)|now apply (Px t Ht v)].
    + exists false. split; [reflexivity|]. split; [discriminate|].
      intros [F _]. inversion F as [|? ? Fx _]; subst. apply disjb_false in D.
      destruct D as (v & H1 & H2). exfalso; now apply (Fx v).
Qed.

Lemma all_pairwise_disjoint_spec l : Forall valid l ->
  exists b, all_pairwise_disjoint l = Ok b /\ (b = true <-> ForallOrdPairs disjoint_scopes l).
Proof.
  intros H. destruct l as [|x l]; cbn.
  - exists true. split; [reflexivity|]. split; [intros _; constructor|reflexivity].
  - inversion H as [|? ? Hx Hl]; subst. unfold all_pairwise_disjoint; cbn.
    destruct (apd_loop_spec l x Hx Hl) as (b & E & Hb). exists b. split; [assumption|].
    rewrite Hb. split; [intros [F P]; now constructor|].
    intros P. inversion P; subst. now split.
Qed.

Lemma scope_eqb_refl s : scope_eqb s s = true.
Proof. apply scope_eqb_spec. split; intros v; tauto. Qed.

Lemma scope_eqb_sym s t : scope_eqb s t = scope_eqb t s.
Proof.
  destruct (scope_eqb s t) eqn:E1, (scope_eqb t s) eqn:E2; try reflexivity.
  - apply scope_eqb_spec in E1. assert (scope_eqb t s = true) by (apply scope_eqb_spec; firstorder). congruence.
  - apply scope_eqb_spec in E2. assert (scope_eqb s t = true) by (apply scope_eqb_spec; firstorder). congruence.
Qed.

Lemma scope_eqb_trans s t u : scope_eqb s t = true -> scope_eqb t u = true -> scope_eqb s u = true.
Proof. rewrite !scope_eqb_spec. intros [A B] [C D]. split; intros v; [rewrite A|rewrite B]; auto. Qed.

Lemma ae_loop_spec l o : ae_loop (Some o) l = true <-> Forall (fun s => scope_eqb o s = true) l.
Proof.
  induction l as [|x l IH]; cbn; [split; [constructor|reflexivity]|].
  destruct (scope_eqb o x) eqn:E; cbn.
  - rewrite IH. split; [now constructor|]. intros H; now inversion H.
  - split; [discriminate|]. intros H; inversion H; congruence.
Qed.

Lemma all_equal_spec l :
  all_equal l = true <-> (forall s t, In s l -> In t l -> scope_eqb s t = true).
Proof.
  destruct l as [|x l]; unfold all_equal; cbn [ae_loop].
  - split; [intros _ s t []|reflexivity].
  - rewrite ae_loop_spec, Forall_forall. split.
    + intros H s t Hs Ht.
      assert (forall u, In u (x :: l) -> scope_eqb x u = true) as G.
      { intros u [<-|Hu]; [apply scope_eqb_refl|auto]. }
      apply scope_eqb_trans with x; [rewrite scope_eqb_sym|]; auto.
    + intros H s Hs. apply H; cbn; auto.
Qed.

(** remove_from_query *)
Lemma list_remove_spec v l :
  (In v l -> exists r, list_remove v l = Ok r) /\ (~ In v l -> list_remove v l = Err).
Proof.
  induction l as [|x l [IH1 IH2]]; cbn; [split; [tauto|reflexivity]|].
  destruct (Nat.eqb_spec x v) as [->|N].
  - split; [eauto|tauto].
  - split.
    + intros [->|H]; [congruence|]. destruct (IH1 H) as (r & ->). cbn; eauto.
    + intros H. rewrite IH2 by tauto. reflexivity.
Qed.

Lemma list_remove_In v l r : NoDup l -> list_remove v l = Ok r ->
  NoDup r /\ forall u, In u r <-> In u l /\ u <> v.
Proof.
  revert r. induction l as [|x l IH]; cbn; intros r Hd H; [discriminate|].
  inversion Hd as [|? ? Hx Hl]; subst.
  destruct (Nat.eqb_spec x v) as [->|N].
  - injection H as <-. split; [assumption|]. intros u; split.
    + intros Hu. split; [now right|]. intros ->; contradiction.
    + intros [[->|Hu] Hn]; [congruence|assumption].
  - destruct (list_remove v l) as [r'|] eqn:E; cbn in H; [|discriminate]. injection H as <-.
    destruct (IH r' Hl eq_refl) as [D I]. split.
    + constructor; [|assumption]. intros C. apply I in C. tauto.
    + intros u; cbn. rewrite I. split.
      * intros [->|[A B]]; auto.
      * intros [[->|A] B]; auto.
Qed.

Lemma remove_from_query_spec s v : valid s ->
  (In v (query s) -> (exists u, In u (query s) /\ u <> v) \/ evidence s = [] ->
     exists t, remove_from_query s v = Ok t /\ valid t /\ evidence t = evidence s /\
               forall u, In u (query t) <-> In u (query s) /\ u <> v)
  /\ (~ In v (query s) -> remove_from_query s v = Err).
Proof.
  intros (V1 & V2 & V3 & V4). unfold remove_from_query. split.
  - intros Hin Hne. destruct (proj1 (list_remove_spec v (query s)) Hin) as (r & E). rewrite E; cbn.
    destruct (list_remove_In v (query s) r V1 E) as [D I].
    assert (valid (mkScope r (evidence s))) as V.
    { unfold valid; cbn [query evidence]. repeat split; auto.
      - intros u Hu. apply I in Hu. apply V3; tauto.
      - intros ->. destruct Hne as [(u & Hu)|H]; [exfalso; apply I in Hu; destruct Hu|assumption]. }
    exists (mkScope r (evidence s)). split; [now apply scope_init_nat_ok|].
    split; [assumption|]. split; [reflexivity|]. intros u; cbn. apply I.
  - intros H. rewrite (proj2 (list_remove_spec v (query s)) H). reflexivity.
Qed.

Lemma init_valid q e s : scope_init_nat q e = Ok s -> valid s.
Proof. intros H. apply scope_init_nat_ok in H. destruct H as [-> H]. exact H. Qed.
