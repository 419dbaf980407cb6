(** mpe follows choices sampling can make: its completion is never impossible. *)
From Coq Require Import List Arith Bool Reals Lia Lra FunctionalExtensionality.
From Verif Require Import Base ScopeModel CircuitModel CircuitSpec CircuitBasics CircuitEval Integral CircuitMarg SampleModel SampleSpec SampleExp SampleProofs SampleTop SampleApi SampleKeep LeafModel LeafProofs MpeSpec.
Import ListNotations.
Local Open Scope R_scope.

Lemma lsumR_nonneg l (f : R -> R) : (forall a, 0 <= f a) -> 0 <= lsumR (map f l).
Proof. intros H. induction l as [|a l IH]; cbn; [lra|]. pose proof (H a). lra. Qed.
Lemma lsumR_pos l (f : R -> R) a : (forall a, 0 <= f a) -> In a l -> 0 < f a -> 0 < lsumR (map f l).
Proof.
  intros H. induction l as [|b l IH]; cbn; [contradiction|]. intros Hi Hp. pose proof (lsumR_nonneg l f H). destruct Hi as [->|Hi]; [lra|].
  pose proof (H b). specialize (IH Hi Hp). lra.
Qed.
Lemma sums_pos d f u a : insup d a -> (forall a, 0 <= f a) -> 0 < f a -> sums d f u -> 0 < u.
Proof.
  destruct d as [l| |]; cbn; intros I H P S; [subst; now apply (lsumR_pos l f a)| |contradiction].
  destruct I as [k ->]. pose proof (sum_incr (fun n => f (INR n)) k u S (fun n => H (INR n))) as Q.
  assert (f (INR k) <= sum_f_R0 (fun n => f (INR n)) k).
  { destruct k; cbn [sum_f_R0]; [lra|]. pose proof (cond_pos_sum (fun n => f (INR n)) k (fun n => H (INR n))). lra. }
  lra.
Qed.
Lemma sums_nn d f u : d <> DReal -> (forall a, 0 <= f a) -> sums d f u -> 0 <= u.
Proof.
  destruct d as [l| |]; cbn; intros N H S; [subst; now apply lsumR_nonneg| |congruence].
  pose proof (sum_incr (fun n => f (INR n)) 0 u S (fun n => H (INR n))) as Q. apply Rle_trans with (f (INR 0)); [apply H|exact Q].
Qed.
Lemma sums_zero d u : d <> DReal -> sums d (fun _ => 0) u -> u = 0.
Proof.
  destruct d as [l| |]; cbn; intros N S; [|eapply uniqueness_sum; [exact S|]|congruence].
  - rewrite <- S. clear. induction l as [|a l IH]; [reflexivity|]. cbn [map lsumR]. rewrite IH. lra.
  - intros eps He. exists 0%nat. intros n _. rewrite sum_eq_R0 by reflexivity. unfold R_dist. rewrite Rminus_0_r, Rabs_R0. exact He.
Qed.
Lemma sums_single f k : (forall n, n <> k -> f (INR n) = 0) -> sums DNat f (f (INR k)).
Proof.
  intros H. cbn. intros eps He. exists k. intros n Hn.
  assert (forall j, (sum_f_R0 (fun n => f (INR n)) j = if Nat.ltb j k then 0 else f (INR k))) as E.
  { induction j as [|j IH].
    - cbn [sum_f_R0]. destruct (Nat.ltb_spec 0 k); [apply H; lia|]. replace k with 0%nat by lia. reflexivity.
    - cbn [sum_f_R0]. rewrite IH. destruct (Nat.ltb_spec j k), (Nat.ltb_spec (S j) k); try lia.
      + rewrite (H (S j)) by lia. lra.
      + replace k with (S j) by lia. lra.
      + rewrite (H (S j)) by lia. ring. }
  rewrite E. destruct (Nat.ltb_spec n k); [lia|]. unfold R_dist. rewrite Rminus_diag_eq by reflexivity. rewrite Rabs_R0. exact He.
Qed.

(** weights of the choices are never negative *)
Fixpoint wnn {A} (p : prog A) : Prop :=
  match p with
  | Ret _ | Raise => True
  | Choose n w k => (forall i, (i < n)%nat -> 0 <= w i) /\ forall i, wnn (k i)
  | Draw _ _ _ _ k => forall a, wnn (k a)
  end.
Lemma wnn_bind {A B} (p : prog A) (q : A -> prog B) : wnn p -> (forall a, wnn (q a)) -> wnn (pbind p q).
Proof. induction p as [a| |n w k IH|l f c r k IH]; cbn; intros H Hq; auto. destruct H. split; auto. Qed.

Section Sim.
Variable D : nat -> domain.
Hypothesis HD : forall v, D v <> DReal.

Lemma expects_nn {A} (p : prog A) g u : wnn p -> (forall a, 0 <= g a) -> expects D p g u -> 0 <= u.
Proof.
  revert u. induction p as [a| |n w k IH|l f c r k IH]; cbn; intros u W G E; [subst; apply G|contradiction| |].
  - destruct E as (h & H & <-), W as [W1 W2]. apply bsum_nonneg. intros i Hi. destruct (Req_dec (w i) 0) as [->|N]; [lra|].
    apply Rmult_le_pos; [auto|]. apply (IH i); auto.
  - destruct E as (h & H & S). eapply sums_nn; [apply HD| |exact S]. intros a. cbn. apply Rmult_le_pos; [apply pr_nonneg|]. apply (IH a); auto.
Qed.

(** the first program takes one possible path of the second *)
Inductive sim {A} : prog A -> prog A -> Prop :=
| s_ret a : sim (Ret a) (Ret a)
| s_raise p : sim p Raise
| s_choose n w k i p : (i < n)%nat -> 0 < w i -> sim p (k i) -> sim p (Choose n w k)
| s_draw l f c r k a p : insup (D (colv l f)) a -> l_lp l f c r a <> NInf -> sim p (k a) -> sim p (Draw l f c r k).

Lemma sim_bind {A B} (p1 p2 : prog A) (q1 q2 : A -> prog B) : sim p1 p2 -> (forall a, sim (q1 a) (q2 a)) -> sim (pbind p1 q1) (pbind p2 q2).
Proof. induction 1; cbn; intros Q; [apply Q|apply s_raise|eapply s_choose; eauto|eapply s_draw; eauto]. Qed.

Lemma pr_pos v : v <> NInf -> 0 < pr v.
Proof. destruct v; cbn; [congruence|intros _; apply exp_pos]. Qed.

Lemma sim_run {A} (p1 p2 : prog A) : sim p1 p2 -> wnn p2 -> forall g0 u0, expects D p2 g0 u0 ->
  exists y, p1 = Ret y /\ forall g u, (forall z, 0 <= g z) -> 0 < g y -> expects D p2 g u -> 0 < u.
Proof.
  induction 1 as [a|p|n w k i p Hi Hw _ IH|l f c r k a p Hs Hl _ IH]; intros W g0 u0 E.
  - exists a. split; [reflexivity|]. cbn. intros g u _ P <-. exact P.
  - contradiction E.
  - cbn in E, W. destruct E as (h & H & _), W as [W1 W2]. destruct (IH (W2 i) g0 (h i)) as (y & -> & P); [apply H; [exact Hi|lra]|].
    exists y. split; [reflexivity|]. intros g u G Py (h' & H' & <-).
    assert (Q : 0 < w i * h' i). { apply Rmult_lt_0_compat; [exact Hw|]. apply (P g); auto. apply H'; [exact Hi|lra]. }
    eapply Rlt_le_trans; [exact Q|]. apply (bsum_term_le n (fun i => w i * h' i)); [exact Hi|]. intros j Hj.
    destruct (Req_dec (w j) 0) as [->|N]; [lra|]. apply Rmult_le_pos; [auto|]. eapply expects_nn; [apply W2|exact G|apply H'; auto].
  - cbn in E, W. destruct E as (h & H & _). destruct (IH (W a) g0 (h a) (H a)) as (y & -> & P).
    exists y. split; [reflexivity|]. intros g u G Py (h' & H' & S).
    eapply (sums_pos _ _ u a Hs); [| |exact S]; cbn.
    + intros b. apply Rmult_le_pos; [apply pr_nonneg|]. eapply expects_nn; [apply W|exact G|apply H'].
    + apply Rmult_lt_0_compat; [now apply pr_pos|]. now apply (P g).
Qed.

Lemma argmax_lt n g : (0 < n)%nat -> (argmax n g < n)%nat.
Proof.
  induction n as [|n IH]; [lia|]. intros _. cbn [argmax]. destruct (Nat.eqb_spec n 0) as [->|N]; [lia|].
  destruct (llt _ _); [lia|]. assert (argmax n g < n)%nat by (apply IH; lia). lia.
Qed.
Lemma llt_pr a b : llt a b = true -> pr a < pr b.
Proof. destruct a as [|x], b as [|y]; cbn; try discriminate; [intros _; apply exp_pos|]. destruct (Rlt_dec x y); [|discriminate]. intros _. now apply exp_increasing. Qed.
Lemma nllt_pr a b : llt a b = false -> pr b <= pr a.
Proof.
  destruct a as [|x], b as [|y]; cbn; try discriminate; intros H; try lra; [left; apply exp_pos|].
  destruct (Rlt_dec x y) as [|N]; [discriminate|]. destruct (Req_dec x y) as [->|]; [lra|]. left. apply exp_increasing. lra.
Qed.
Lemma argmax_max n g : forall i, (i < n)%nat -> pr (g i) <= pr (g (argmax n g)).
Proof.
  induction n as [|n IH]; [lia|]. intros i Hi. cbn [argmax]. destruct (Nat.eqb_spec n 0) as [->|N]; [replace i with 0%nat by lia; lra|].
  destruct (llt _ _) eqn:E.
  - apply llt_pr in E. destruct (Nat.eq_dec i n) as [->|]; [lra|]. specialize (IH i ltac:(lia)). lra.
  - apply nllt_pr in E. destruct (Nat.eq_dec i n) as [->|]; [exact E|]. apply IH. lia.
Qed.

Lemma logits_sim n g : sim (sample_logits true n g) (sample_logits false n g) /\ wnn (sample_logits false n g).
Proof.
  unfold sample_logits. destruct (Rlt_dec _ _) as [P|]; [|split; [apply s_raise|exact I]]. split.
  - assert (0 < n)%nat as Hn. { destruct n; [cbn in P; lra|lia]. }
    apply (s_choose n _ _ (argmax n g)); [now apply argmax_lt| |apply s_ret].
    apply Rdiv_lt_0_compat; [|exact P]. destruct (Rle_or_lt (pr (g (argmax n g))) 0) as [Z|]; [|assumption]. exfalso.
    assert (bsum n (fun i => pr (g i)) <= bsum n (fun _ => 0)) as Q.
    { apply bsum_le. intros i Hi. pose proof (argmax_max n g i Hi). lra. }
    rewrite (bsum_zero n (fun _ => 0)) in Q by reflexivity. lra.
  - split; [|intros; exact I]. intros i _. apply Rmult_le_pos; [apply pr_nonneg|]. left. now apply Rinv_0_lt_compat.
Qed.
Lemma pick_sim ev ch co rr lg r f c : sim (sum_pick true ev ch co rr lg r f c) (sum_pick false ev ch co rr lg r f c) /\ wnn (sum_pick false ev ch co rr lg r f c).
Proof.
  unfold sum_pick. destruct (_ && _)%bool; [|split; [apply s_raise|exact I]].
  destruct ev as [e|]; [|apply logits_sim]. destruct (Nat.ltb _ _); [apply logits_sim|split; [apply s_raise|exact I]].
Qed.
Lemma choose_sim p1 p2 : (forall f c, sim (p1 f c) (p2 f c) /\ wnn (p2 f c)) -> forall ci f,
  sim (choose_channels p1 f ci) (choose_channels p2 f ci) /\ wnn (choose_channels p2 f ci).
Proof.
  intros H. induction ci as [|c ci IH]; intros f; cbn; [split; [apply s_ret|exact I]|].
  split.
  - apply sim_bind; [apply H|]. intros n. apply sim_bind; [apply IH|]. intros; apply s_ret.
  - apply wnn_bind; [apply H|]. intros n. apply wnn_bind; [apply IH|]. intros; exact I.
Qed.

Lemma fill_sim l r : (forall f c, leaf_range l f c r -> insup (D (colv l f)) (l_mode l f c r) /\ l_lp l f c r (l_mode l f c r) <> NInf) ->
  (r < l_rep l)%nat -> forall cols cm f x, (f + length cols <= length (query (l_scope l)))%nat -> forallb (fun p : nat * bool => Nat.ltb (fst p) (l_ch l)) cm = true ->
  sim (fill_cells true l r f cols cm x) (fill_cells false l r f cols cm x) /\ wnn (fill_cells false l r f cols cm x).
Proof.
  intros M Hr. induction cols as [|v cols IH]; intros cm f x L F; cbn; [split; [apply s_ret|exact I]|].
  destruct cm as [|[c b] cm]; [split; [apply s_ret|exact I]|]. cbn in L, F. apply andb_true_iff in F as [Fc F]. apply Nat.ltb_lt in Fc.
  assert (K : forall x, sim (fill_cells true l r (S f) cols cm x) (fill_cells false l r (S f) cols cm x) /\ wnn (fill_cells false l r (S f) cols cm x)).
  { intros z. apply IH; [lia|exact F]. }
  destruct (x v); [apply K|]. destruct b; [|apply K]. unfold leaf_value. cbn [pbind]. split; [|intros a; apply K].
  destruct (M f c) as [M1 M2]. { unfold leaf_range. lia. }
  apply (s_draw l f c r _ (l_mode l f c r)); [exact M1|exact M2|apply K].
Qed.

Lemma sample_sim W ev m : modes_possible D m -> forall t x, sim (sample_m true W ev m t x) (sample_m false W ev m t x) /\ wnn (sample_m false W ev m t x).
Proof.
  induction m as [l|ch co rr lg IH|d2 sc cs IH|ch IH] using module_ind'; intros M t x.
  - cbn [sample_m]. unfold sample_leaf. destruct (validate _ _ _ _) eqn:V; [|split; [apply s_raise|exact I]].
    destruct (scope_cols W l) as [cols|] eqn:EC; [|split; [apply s_raise|exact I]].
    destruct (slice_leaf W cols t) as [cm|]; [|split; [apply s_raise|exact I]].
    destruct (row_active cols cm x); [|split; [apply s_ret|exact I]].
    destruct (forallb _ cm) eqn:F; [|split; [apply s_raise|exact I]].
    apply fill_sim; [|unfold validate in V; rewrite !andb_true_iff, !Nat.ltb_lt in V; tauto| |exact F].
    + intros f c R. apply (M l f c (c_rep t)); [now left|exact R].
    + unfold scope_cols in EC. destruct (forallb _ _); [injection EC as <-; lia|].
      destruct (Nat.eqb_spec W (length (query (l_scope l)))) as [E|]; [|discriminate]. injection EC as <-. rewrite seq_length. lia.
  - cbn [sample_m]. destruct (validate _ _ _ _); [|split; [apply s_raise|exact I]].
    destruct (broadcast _ _) as [t1|]; [|split; [apply s_raise|exact I]].
    destruct (choose_sim (sum_pick true ev ch co rr lg (c_rep t1)) (sum_pick false ev ch co rr lg (c_rep t1)) (fun f c => pick_sim ev ch co rr lg (c_rep t1) f c) (c_ci t1) 0%nat) as [A B].
    split; [apply sim_bind; [exact A|]|apply wnn_bind; [exact B|]]; intros ns; apply IH; exact M.
  - rewrite !sample_m_cat. cbv zeta. destruct (validate _ _ _ _); [|split; [apply s_raise|exact I]].
    destruct (broadcast _ _) as [t1|]; [|split; [apply s_raise|exact I]]. destruct (cat_ok _ _ _); [|split; [apply s_raise|exact I]].
    assert (M' : forall c, In c cs -> modes_possible D c).
    { intros c Hc l f k r Hl. apply M. rewrite leaves_cat. apply in_concat. exists (leaves_of c). split; [now apply in_map|exact Hl]. }
    clear M. rewrite Forall_forall in IH.
    assert (IH' : forall c, In c cs -> forall t x, sim (sample_m true W ev c t x) (sample_m false W ev c t x) /\ wnn (sample_m false W ev c t x)) by auto.
    clear IH M'. revert x. generalize 0%nat as off. revert IH'. generalize cs as l. induction l as [|c l IHl]; intros IH off x; cbn [cat_run]; [split; [apply s_ret|exact I]|].
    destruct (child_ok _ _ _ _); [|split; [apply s_raise|exact I]].
    split; [apply sim_bind|apply wnn_bind]; try (apply IH; now left); intros y; apply IHl; intros c' Hc'; apply IH; now right.
  - cbn [sample_m]. destruct (validate _ _ _ _); [|split; [apply s_raise|exact I]].
    destruct (broadcast _ _) as [t1|]; [|split; [apply s_raise|exact I]]. apply IH. exact M.
Qed.


Lemma so_zero : forall vs f x u, (forall z, (forall v, ~ In v vs -> z v = x v) -> f z = 0) -> sums_over D vs f x u -> u = 0.
Proof.
  induction vs as [|v vs IH]; cbn; intros f x u H S; [rewrite <- S; apply H; auto|].
  destruct S as (h & A & S). apply (sums_zero (D v)); [apply HD|]. eapply sums_ext; [|exact S]. intros a. cbn beta.
  apply (IH f (upd x v (Some a))); [|apply A]. intros z Hz. apply H. intros w Hw. rewrite Hz by tauto. apply upd_other. intros ->. tauto.
Qed.

Definition single (d : domain) (b : option R) (f : R -> R) : R :=
  match d with
  | DFin l => lsumR (map f l)
  | _ => match b with Some b => match LeafModel.asnat b with Some _ => f b | None => 0 end | None => 0 end
  end.
Lemma point_sums v y (p : R -> R) :
  sums (D v) (fun a => p a * point y v a) (single (D v) (y v) (fun a => p a * point y v a)).
Proof.
  pose proof (HD v) as Hv. unfold single, point. destruct (D v) as [l| |]; [reflexivity| |congruence].
  assert (Z : forall f : R -> R, (forall n, f (INR n) = 0) -> sums DNat f 0).
  { intros f H. cbn. intros eps He. exists 0%nat. intros n _. rewrite sum_eq_R0 by (intros; apply H). unfold R_dist. rewrite Rminus_0_r, Rabs_R0. exact He. }
  destruct (y v) as [b|]; [|apply Z; intros; ring].
  destruct (LeafModel.asnat b) as [k|] eqn:E.
  - apply LeafProofs.asnat_Some in E. subst b. apply (sums_single (fun a => p a * (if Req_EM_T a (INR k) then 1 else 0)) k).
    intros n Hn. destruct (Req_EM_T (INR n) (INR k)) as [E|]; [apply INR_eq in E; congruence|ring].
  - apply Z. intros n. destruct (Req_EM_T (INR n) b) as [<-|]; [rewrite LeafProofs.asnat_INR in E; discriminate|ring].
Qed.
Lemma point_int y m : leaf_int D (point y) (fun l f c r => single (D (colv l f)) (y (colv l f)) (fun a => pr (l_lp l f c r a) * point y (colv l f) a)) m.
Proof. intros l f c r _ _. apply (point_sums (colv l f) y (fun a => pr (l_lp l f c r a))). Qed.
Lemma point_nn y v a : 0 <= point y v a.
Proof. unfold point. destruct (y v); [destruct (Req_EM_T _ _)|]; lra. Qed.
Lemma tests_nn y vs z : 0 <= tests (point y) vs z.
Proof. unfold tests. induction vs as [|v vs IH]; cbn; [lra|]. apply Rmult_le_pos; [|exact IH]. unfold cell. destruct (z v); [apply point_nn|lra]. Qed.
Lemma tests_self y vs : (forall v, In v vs -> y v <> None) -> tests (point y) vs y = 1.
Proof.
  unfold tests. induction vs as [|v vs IH]; cbn; intros H; [reflexivity|]. rewrite IH by auto. specialize (H v (or_introl eq_refl)).
  unfold cell, point. destruct (y v) as [b|]; [|congruence]. destruct (Req_EM_T b b); [ring|congruence].
Qed.
Lemma tests_eq y vs z : tests (point y) vs z <> 0 -> forall v, In v vs -> z v = y v.
Proof.
  unfold tests. induction vs as [|u vs IH]; cbn; intros H v; [contradiction|]. intros [<-|Hv].
  - unfold cell, point in H. destruct (z u) as [a|]; [|exfalso; apply H; ring]. destruct (y u) as [b|]; [|exfalso; apply H; ring].
    destruct (Req_EM_T a b) as [->|]; [reflexivity|exfalso; apply H; ring].
  - apply IH; [|exact Hv]. intros E. apply H. rewrite E. ring.
Qed.

(** the common part: [p2] samples, [p1] is the corresponding mpe run *)
Lemma mpe_core m (p1 p2 : prog row) e vs k : k <> 0 ->
  sim p1 p2 -> wnn p2 ->
  (forall y, exists u, expects D p2 (tests (point y) vs) u /\ sums_over D vs (fun z => joint m z * tests (point y) vs z) e (u * k)) ->
  (forall y, p1 = Ret y -> (forall v, In v vs -> y v <> None) /\ (forall v, ~ In v vs -> y v = e v)) ->
  exists y, p1 = Ret y /\ joint m y <> 0.
Proof.
  intros Hk S W E K. destruct (E (fun _ => None)) as (u0 & E0 & _).
  destruct (sim_run p1 p2 S W _ _ E0) as (y & Ey & P). exists y. split; [exact Ey|]. destruct (K y Ey) as [K1 K2].
  destruct (E y) as (u & E1 & S1).
  assert (0 < u) as Hu. { apply (P (tests (point y) vs) u); [intros; apply tests_nn|rewrite tests_self by assumption; lra|exact E1]. }
  intros Z. assert (u * k = 0) as Q; [|apply Rmult_integral in Q; lra].
  apply (so_zero vs _ e (u * k)) in S1; [exact S1|]. intros z Hz.
  destruct (Req_dec (tests (point y) vs z) 0) as [->|N]; [ring|].
  replace z with y; [rewrite Z; ring|]. apply functional_extensionality. intros v.
  destruct (in_dec Nat.eq_dec v vs) as [I|I]; [symmetry; now apply (tests_eq y vs z N)|]. now rewrite K2, Hz.
Qed.

Lemma mpe_evidence W m s e : built m -> aligned m -> ll_shape m = Ok s -> (0 < repetitions s)%nat -> (forall v, vars m v -> (v < W)%nat) ->
  modes_possible D m -> sums_positive m e -> joint m e <> 0 ->
  exists y, sample_with_evidence true W m e = Ret y /\ joint m y <> 0.
Proof.
  intros B A L Hr HW M SP J.
  set (vs := filter (fun v => isnone (e v)) (query (scope_of m))).
  assert (Mi : missing e (query (scope_of m)) vs).
  { split; [apply NoDup_filter, (wf_scope m (wf_wf1 m (built_wf m B)))|]. intros v. unfold vs. rewrite filter_In. destruct (e v); cbn; intuition discriminate. }
  assert (EW : forallb (fun v => Nat.ltb v W) (query (scope_of m)) = true) by (apply forallb_forall; intros v Hv; apply Nat.ltb_lt; now apply HW).
  assert (U : forall b, sample_with_evidence b W m e = sample_m b W (Some e) m init_ctx e) by (intros b; unfold sample_with_evidence; now rewrite L, EW).
  destruct (sample_sim W (Some e) m M init_ctx e) as [S Wn].
  rewrite U. apply (mpe_core m _ (sample_m false W (Some e) m init_ctx e) e vs (joint m e)); auto.
  - intros y. rewrite <- U. apply (c10 D W m s (point y) _ (fun v a => point_nn y v a) B A L Hr HW (point_int y m) e vs SP J Mi).
  - intros y Ey. assert (O : outcome (sample_m true W (Some e) m init_ctx e) y) by (rewrite Ey; constructor).
    destruct (c11 true W (Some e) m e y B O) as [C1 C2]. destruct (C2 HW) as [C3 C4]. split.
    + intros v Hv. apply C4; [exact A|]. now apply Mi in Hv.
    + intros v Hv. destruct (in_dec Nat.eq_dec v (query (scope_of m))) as [I|I]; [|now apply C3].
      apply C1. intros N. apply Hv, Mi. auto.
Qed.
Lemma mpe_plain W m s x : built m -> aligned m -> ll_shape m = Ok s -> (0 < repetitions s)%nat -> (forall v, vars m v -> (v < W)%nat) ->
  modes_possible D m -> (forall v, vars m v -> x v = None) ->
  exists y, sample true W m x = Ret y /\ joint m y <> 0.
Proof.
  intros B A L Hr HW M Hx. set (vs := query (scope_of m)).
  assert (ND : NoDup vs) by apply (wf_scope m (wf_wf1 m (built_wf m B))).
  destruct (sample_sim W None m M init_ctx x) as [S Wn]. unfold sample.
  apply (mpe_core m _ (sample_m false W None m init_ctx x) x vs 1); auto.
  - intros y. destruct (c09 D W m s (point y) _ (fun v a => point_nn y v a) B A L Hr HW (point_int y m) x vs Hx ND) as (u & E1 & E2); [reflexivity|].
    exists u. rewrite Rmult_1_r. split; assumption.
  - intros y Ey. assert (O : outcome (sample_m true W None m init_ctx x) y) by (rewrite Ey; constructor).
    destruct (c11 true W None m x y B O) as [C1 C2]. destruct (C2 HW) as [C3 C4]. split; [intros v Hv; now apply C4|exact C3].
Qed.
End Sim.
