(** learn_cnet: structure, normalisation, semantics. *)
From Coq Require Import List Arith ZArith Bool Reals Lia Lra Permutation FunctionalExtensionality.
From Verif Require Import Base ScopeModel ScopeProofs CircuitModel Integral LearnModel LearnTop SignedModel SignedProofs CnetModel CnetSpec.
Import ListNotations.
Local Open Scope R_scope.

Lemma reqb_spec a b : reqb a b = true <-> a = b.
Proof. unfold reqb. destruct (Req_EM_T a b); split; auto; discriminate. Qed.
Lemma rleb_spec a b : rleb a b = true <-> a <= b.
Proof. unfold rleb. destruct (Rle_dec a b); split; auto; try discriminate; contradiction. Qed.
Lemma rleb_false a b : rleb a b = false <-> b < a.
Proof. unfold rleb. destruct (Rle_dec a b); split; intros; try discriminate; try lra; auto. Qed.

(** *** sums over assignments *)
Lemma dsum_ext cards : forall vs f g x, (forall y, (forall v, ~ In v vs -> y v = x v) -> f y = g y) -> dsum cards vs f x = dsum cards vs g x.
Proof.
  induction vs as [|v vs IH]; intros f g x H; cbn [dsum]; [apply H; auto|].
  apply bsum_ext. intros k _. apply IH. intros y Hy. apply H. intros u Hu. cbn in Hu. rewrite Hy by tauto. apply upd_other. intros ->. tauto.
Qed.
Lemma dsum_scal cards a : forall vs f x, dsum cards vs (fun y => a * f y) x = a * dsum cards vs f x.
Proof. induction vs as [|v vs IH]; intros f x; cbn [dsum]; [reflexivity|]. rewrite <- bsum_scal. apply bsum_ext. intros. apply IH. Qed.
Lemma dsum_bsum cards n : forall vs (f : nat -> row -> R) x, dsum cards vs (fun y => bsum n (fun c => f c y)) x = bsum n (fun c => dsum cards vs (f c) x).
Proof.
  induction vs as [|v vs IH]; intros f x; cbn [dsum]; [reflexivity|]. rewrite bsum_swap. apply bsum_ext. intros k _. apply IH.
Qed.
Lemma upd_comm x u v a b : u <> v -> upd (upd x u a) v b = upd (upd x v b) u a.
Proof. intros H. apply functional_extensionality. intros w. unfold upd. destruct (Nat.eqb_spec w v), (Nat.eqb_spec w u); congruence. Qed.
Lemma dsum_perm cards vs vs' : Permutation vs vs' -> NoDup vs -> forall f x, dsum cards vs f x = dsum cards vs' f x.
Proof.
  induction 1 as [|v l l' P IH|u v l|l1 l2 l3 P1 IH1 P2 IH2]; intros ND f x.
  - reflexivity.
  - inversion ND; subst. cbn [dsum]. apply bsum_ext. intros. now apply IH.
  - inversion ND as [|? ? H1 H2]; subst. cbn [dsum]. rewrite bsum_swap. apply bsum_ext. intros i _. apply bsum_ext. intros j _.
    rewrite upd_comm; [reflexivity|]. intros ->. apply H1. now left.
  - rewrite IH1 by exact ND. apply IH2. eapply Permutation_NoDup; eauto.
Qed.
Lemma remove_perm (v : nat) l : NoDup l -> In v l -> Permutation l (v :: filter (fun u => negb (Nat.eqb u v)) l).
Proof.
  induction l as [|u l IH]; intros ND H; [destruct H|]. inversion ND as [|? ? N ND']; subst. cbn [filter].
  destruct (Nat.eqb_spec u v) as [->|Huv]; cbn [negb].
  - constructor. assert (filter (fun u => negb (Nat.eqb u v)) l = l) as ->; [|reflexivity].
    clear -N. induction l as [|w l IH]; [reflexivity|]. cbn. destruct (Nat.eqb_spec w v) as [->|]; [exfalso; apply N; now left|]. cbn. f_equal. apply IH. intros K. apply N. now right.
  - destruct H as [->|H]; [congruence|]. rewrite perm_swap. constructor. now apply IH.
Qed.

(** *** the weights of the branches *)
Section Branches.
Variables (oc K : nat) (cnt : nat -> nat) (f : nat -> cnet).
Hypothesis HK : (0 < K)%nat.
Hypothesis Hoc : (1 <= oc)%nat.
Definition wt (k : nat) : R := if Nat.eqb (list_sum (map cnt (seq 0 K))) 0 then 1 / INR K else INR (cnt k) / INR (list_sum (map cnt (seq 0 K))).
Lemma branch_weights_eq : branch_weights (map cnt (seq 0 K)) = map wt (seq 0 K).
Proof.
  unfold branch_weights, wt. rewrite map_length, seq_length. destruct (Nat.eqb _ 0); rewrite map_map; reflexivity.
Qed.
Lemma list_sum_INR : forall l, INR (list_sum (map cnt l)) = lsumR (map (fun k => INR (cnt k)) l).
Proof. induction l as [|k l IH]; [reflexivity|]. unfold list_sum in *. cbn [map fold_right lsumR]. rewrite plus_INR, IH. reflexivity. Qed.
Lemma wt_nonneg k : 0 <= wt k.
Proof.
  unfold wt. destruct (Nat.eqb_spec (list_sum (map cnt (seq 0 K))) 0) as [E|E].
  - apply Rlt_le, Rdiv_lt_0_compat; [lra|]. apply lt_0_INR. exact HK.
  - apply Rmult_le_pos; [apply pos_INR|]. apply Rlt_le, Rinv_0_lt_compat, lt_0_INR. lia.
Qed.
Lemma wt_sum : lsumR (map wt (seq 0 K)) = 1.
Proof.
  unfold wt. destruct (Nat.eqb_spec (list_sum (map cnt (seq 0 K))) 0) as [E|E].
  - rewrite lsumR_seq, bsum_const. field. apply not_0_INR. lia.
  - transitivity (lsumR (map (fun k => INR (cnt k) * / INR (list_sum (map cnt (seq 0 K)))) (seq 0 K))); [reflexivity|].
    rewrite lsumR_map_scal_r, <- list_sum_INR. apply Rinv_r. apply not_0_INR. exact E.
Qed.
Lemma channel_weights_eq : channel_weights oc (map wt (seq 0 K)) = map (fun k => wt k / INR oc) (seq 0 K).
Proof.
  unfold channel_weights. rewrite !map_map.
  assert (O0 : INR oc <> 0) by (apply not_0_INR; lia).
  assert (lsumR (map (fun x => wt x / INR oc) (seq 0 K)) = / INR oc) as ->.
  { transitivity (lsumR (map (fun x => wt x * / INR oc) (seq 0 K))); [reflexivity|]. rewrite lsumR_map_scal_r, wt_sum. lra. }
  rewrite Rinv_r by exact O0. rewrite Rmax_left by (assert (1 <= 10 ^ 12) by lra; rewrite <- Rinv_1; apply Rinv_le_contravar; lra).
  apply map_ext. intros k. field. exact O0.
Qed.
Lemma combine_maps {A B C} (g : A -> B) (h : A -> C) l : combine (map g l) (map h l) = map (fun k => (g k, h k)) l.
Proof. induction l as [|a l IH]; [reflexivity|]. cbn. now rewrite IH. Qed.
Lemma filter_map_comm {A B} (P : B -> bool) (h : A -> B) l : filter P (map h l) = map h (filter (fun a => P (h a)) l).
Proof. induction l as [|a l IH]; [reflexivity|]. cbn. destruct (P (h a)); cbn; now rewrite IH. Qed.
Definition live : list nat := filter (fun k => negb (rleb (wt k) 0)) (seq 0 K).
Lemma live_In k : In k live <-> (k < K)%nat /\ 0 < wt k.
Proof. unfold live. rewrite filter_In, in_seq, negb_true_iff, rleb_false. intuition lia. Qed.
Lemma live_NoDup : NoDup live.
Proof. apply NoDup_filter, seq_NoDup. Qed.
Lemma combine_spec : let r := combine_branches oc (map cnt (seq 0 K)) (map f (seq 0 K)) in
  (exists k, (k < K)%nat /\ 0 < wt k /\ (forall j, (j < K)%nat -> j <> k -> wt j = 0) /\ r = Ok (f k)) \/
  ((forall k, (k < K)%nat -> 0 < wt k) /\ r = Ok (CMix (map (fun k => wt k / INR oc) (seq 0 K)) (map f (seq 0 K)))) \/
  ((exists k, (k < K)%nat /\ wt k = 0) /\ (exists i j, (i < K)%nat /\ (j < K)%nat /\ i <> j /\ 0 < wt i /\ 0 < wt j) /\ r = Err).
Proof.
  cbn zeta. unfold combine_branches. rewrite branch_weights_eq, channel_weights_eq, combine_maps, filter_map_comm. cbn [snd]. fold live.
  assert (IO : 0 < INR oc) by (apply lt_0_INR; lia).
  assert (Z : forall k, (k < K)%nat -> ~ In k live -> wt k = 0).
  { intros k Hk N. destruct (Rle_lt_or_eq_dec 0 (wt k) (wt_nonneg k)) as [P|P]; [|now symmetry]. exfalso. apply N, live_In. auto. }
  set (ok := (forallb (fun a : R => negb (rleb a 0)) (map (fun k => wt k / INR oc) (seq 0 K)) && negb (Nat.eqb (length (map f (seq 0 K))) 0))%bool).
  assert (OK : ok = true <-> forall k, (k < K)%nat -> 0 < wt k).
  { unfold ok. rewrite map_length, seq_length, andb_true_iff, forallb_forall. destruct (Nat.eqb_spec K 0); [lia|]. cbn [negb]. split.
    - intros [H _] k Hk. specialize (H (wt k / INR oc) ltac:(apply in_map_iff; exists k; rewrite in_seq; split; [reflexivity|lia])).
      rewrite negb_true_iff, rleb_false in H. assert (wt k = wt k / INR oc * INR oc) as -> by (field; lra). apply Rmult_lt_0_compat; assumption.
    - intros H. split; [|reflexivity]. intros a Ha. apply in_map_iff in Ha. destruct Ha as (k & <- & Hk). apply in_seq in Hk.
      rewrite negb_true_iff, rleb_false. apply Rdiv_lt_0_compat; [apply H; lia|assumption]. }
  destruct live as [|k [|k2 l]] eqn:EL; cbn [map].
  - exfalso. assert (lsumR (map wt (seq 0 K)) = 0) as E0.
    { apply lsumR_map_zero. intros k Hk. apply in_seq in Hk. apply Z; [lia|intros []]. }
    rewrite wt_sum in E0. lra.
  - left. exists k. assert (In k live) as Hk by (rewrite EL; now left). apply live_In in Hk. destruct Hk as [H1 H2].
    split; [exact H1|]. split; [exact H2|]. split; [|reflexivity]. intros j Hj Hjk. apply Z; [exact Hj|]. intros [E|[]]. congruence.
  - right. destruct ok eqn:EO.
    + left. split; [now apply OK|reflexivity].
    + right. split; [|split; [|reflexivity]].
      * destruct (existsb (fun k => rleb (wt k) 0) (seq 0 K)) eqn:EX.
        -- apply existsb_exists in EX. destruct EX as (j & Hj & E). apply in_seq in Hj. apply rleb_spec in E. exists j. split; [lia|]. pose proof (wt_nonneg j). lra.
        -- exfalso. assert (false = true) as X; [|discriminate]. apply OK. intros j Hj.
           destruct (rleb (wt j) 0) eqn:E; [|now apply rleb_false].
           assert (existsb (fun k => rleb (wt k) 0) (seq 0 K) = true) as Y by (apply existsb_exists; exists j; rewrite in_seq; split; [lia|exact E]). congruence.
      * exists k, k2. assert (ND : NoDup (k :: k2 :: l)) by (rewrite <- EL; apply live_NoDup).
        assert (In k live /\ In k2 live) as [A B] by (rewrite EL; split; [now left|right; now left]). apply live_In in A, B.
        split; [apply A|]. split; [apply B|]. split; [|split; [apply A|apply B]]. intros ->. inversion ND as [|? ? N _]. apply N. now left.
Qed.
End Branches.
