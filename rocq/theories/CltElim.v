(** Message passing on a tree eliminates variables: sums (likelihood) and maxima (MPE). *)
From Coq Require Import List Arith ZArith Bool Reals Lia Lra Permutation.
From Verif Require Import Base CircuitModel SampleModel SampleSpec SampleExp HistModel HistProofs CltModel CltSpec CltDfs.
Import ListNotations.
Local Open Scope R_scope.

Lemma fupd_same x i k : fupd x i k i = k. Proof. unfold fupd. now rewrite Nat.eqb_refl. Qed.
Lemma fupd_other x i k j : j <> i -> fupd x i k j = x j.
Proof. intros H. unfold fupd. destruct (Nat.eqb_spec j i); [contradiction|reflexivity]. Qed.

Lemma NoDup_app_l {A} (a b : list A) : NoDup (a ++ b) -> NoDup a.
Proof.
  induction a as [|x a IH]; intros H; [constructor|]. cbn in H. apply NoDup_cons_iff in H. destruct H as [H1 H2].
  constructor; [|auto]. rewrite in_app_iff in H1. tauto.
Qed.

(** argmax of log values *)
Lemma llt_pr a b : llt a b = true <-> pr a < pr b.
Proof.
  destruct a as [|x], b as [|y]; cbn; try (split; intros H; [discriminate|lra]).
  - split; intros _; [apply exp_pos|reflexivity].
  - split; intros H; [discriminate|]. pose proof (exp_pos x). lra.
  - destruct (Rlt_dec x y) as [L|L]; split; intros H; try discriminate; try reflexivity.
    + now apply exp_increasing.
    + apply exp_lt_inv in H. contradiction.
Qed.
Lemma llt_false a b : llt a b = false <-> pr b <= pr a.
Proof. rewrite <- not_true_iff_false, llt_pr. split; lra. Qed.
Lemma argmax_lt n g : (0 < n)%nat -> (argmax n g < n)%nat.
Proof.
  induction n as [|n IH]; intros H; [lia|]. cbn [argmax]. destruct (Nat.eqb_spec n 0) as [->|N]; [lia|].
  destruct (llt _ _); [lia|]. specialize (IH ltac:(lia)). lia.
Qed.
Lemma argmax_max n g i : (i < n)%nat -> pr (g i) <= pr (g (argmax n g)).
Proof.
  revert i. induction n as [|n IH]; intros i H; [lia|]. cbn [argmax]. destruct (Nat.eqb_spec n 0) as [->|N].
  - replace i with 0%nat by lia. lra.
  - destruct (llt (g (argmax n g)) (g n)) eqn:E.
    + apply llt_pr in E. destruct (Nat.eq_dec i n) as [->|]; [lra|]. specialize (IH i ltac:(lia)). lra.
    + apply llt_false in E. destruct (Nat.eq_dec i n) as [->|]; [assumption|]. apply IH. lia.
Qed.
Lemma argmax_rmaxn n g : (0 < n)%nat -> pr (g (argmax n g)) = rmaxn n (fun i => pr (g i)).
Proof.
  intros H. apply (proj1 (rmaxn_greatest n (fun i => pr (g i)) (pr (g (argmax n g))) H)). split.
  - intros i Hi. now apply argmax_max.
  - exists (argmax n g). split; [now apply argmax_lt|reflexivity].
Qed.
Lemma rmaxn_scal n a g : 0 <= a -> rmaxn n (fun i => a * g i) = a * rmaxn n g.
Proof.
  intros Ha. induction n as [|n IH]; cbn [rmaxn]; [ring|]. destruct (Nat.eqb n 0); [reflexivity|].
  rewrite IH. apply RmaxRmult. assumption.
Qed.
Lemma rmaxn_ext n f g : (forall i, (i < n)%nat -> f i = g i) -> rmaxn n f = rmaxn n g.
Proof.
  induction n as [|n IH]; intros H; [reflexivity|]. cbn [rmaxn]. rewrite IH by (intros; apply H; lia).
  rewrite (H n) by lia. destruct (Nat.eqb_spec n 0) as [->|]; [now rewrite H by lia|reflexivity].
Qed.

Section Elim.
  Variables (K : nat) (parents : list Z) (cpt : nat -> nat -> nat -> lval) (root : nat) (mpe : bool) (ob : nat -> option nat).
  Hypothesis K_pos : (0 < K)%nat.
  Hypothesis root_par : par parents root = (-1)%Z.

  (** aggregation over the values of one node *)
  Definition agg (i : nat) (h : nat -> R) : R :=
    match ob i with Some v => h v | None => if mpe then rmaxn K h else bsum K h end.
  Fixpoint aggs (l : list nat) (g : (nat -> nat) -> R) (x : nat -> nat) : R :=
    match l with [] => g x | i :: r => agg i (fun k => aggs r g (fupd x i k)) end.

  Lemma agg_ext i f g : (forall k, f k = g k) -> agg i f = agg i g.
  Proof.
    intros H. unfold agg. destruct (ob i); [apply H|]. destruct mpe; [apply rmaxn_ext|apply bsum_ext]; auto.
  Qed.
  Lemma agg_scal i a f : 0 <= a -> agg i (fun k => a * f k) = a * agg i f.
  Proof.
    intros H. unfold agg. destruct (ob i); [reflexivity|]. destruct mpe; [now apply rmaxn_scal|apply bsum_scal].
  Qed.

  (** the conditional of node [i] *)
  Definition cond (i : nat) (x : nat -> nat) : R :=
    if Z.eqb (par parents i) (-1) then pr (cpt i (x i) 0%nat) else pr (cpt i (x i) (x (Z.to_nat (par parents i)))).
  Definition J (pre : list nat) (x : nat -> nat) : R := lprod pre (fun i => cond i x).

  (** the state after the messages of [l], in reverse order *)
  Definition bps (l : list nat) : bpstate := fold_right (fun i s => bp_step K parents cpt mpe ob s i) bp0 l.
  Lemma bp_bps l : bp K parents cpt mpe ob (rev l) = bps l.
  Proof. unfold bp, bps. rewrite <- fold_left_rev_right, rev_involutive. reflexivity. Qed.

  Definition score (s : bpstate) (i xi xp : nat) : lval := ladd (cpt i xi xp) (fst s i xi).
  Definition msg (s : bpstate) (i xp : nat) : lval :=
    match ob i with
    | Some xi => score s i xi xp
    | None => if mpe then score s i (argmax K (fun xi => score s i xi xp)) xp else lse K (fun xi => score s i xi xp)
    end.

  Lemma step_root s : bp_step K parents cpt mpe ob s root = s.
  Proof. unfold bp_step. rewrite root_par. destruct s. reflexivity. Qed.
  Lemma step_fst s i p j k : par parents i = Z.of_nat p ->
    fst (bp_step K parents cpt mpe ob s i) j k = if Nat.eqb j p then ladd (fst s j k) (msg s i k) else fst s j k.
  Proof.
    intros E. unfold bp_step. destruct s as [cs bk]. rewrite E. destruct (Z.eqb_spec (Z.of_nat p) (-1)); [lia|].
    cbn [fst]. rewrite Nat2Z.id. reflexivity.
  Qed.
  Lemma step_snd s i p j k : par parents i = Z.of_nat p ->
    snd (bp_step K parents cpt mpe ob s i) j k = if Nat.eqb j i then
       match ob i with Some xi => xi | None => if mpe then argmax K (fun xi => score s i xi k) else snd s i k end else snd s j k.
  Proof.
    intros E. unfold bp_step. destruct s as [cs bk]. rewrite E. destruct (Z.eqb_spec (Z.of_nat p) (-1)); [lia|].
    cbn [snd fst]. reflexivity.
  Qed.
  Lemma pr_msg s i xp : pr (msg s i xp) = agg i (fun k => pr (cpt i k xp) * pr (fst s i k)).
  Proof.
    unfold msg, agg, score. destruct (ob i) as [v|]; [apply pr_ladd|]. destruct mpe.
    - rewrite (argmax_rmaxn K (fun xi => ladd (cpt i xi xp) (fst s i xi))) by assumption. apply rmaxn_ext. intros k _. apply pr_ladd.
    - rewrite pr_lse. apply bsum_ext. intros k _. apply pr_ladd.
  Qed.

  (** a product over nodes, changed at one node *)
  Lemma lprod_at (P : list nat) p f g m : NoDup P -> In p P -> (forall j, In j P -> f j = if Nat.eqb j p then g j * m else g j) ->
    lprod P f = lprod P g * m.
  Proof.
    induction P as [|a P IH]; intros N Hp H; [destruct Hp|]. apply NoDup_cons_iff in N. destruct N as [Na N].
    cbn [lprod]. rewrite (H a) by now left. destruct (Nat.eqb_spec a p) as [->|Hne].
    - rewrite (lprod_ext P f g); [ring|]. intros j Hj. rewrite H by now right.
      destruct (Nat.eqb_spec j p) as [->|]; [contradiction|reflexivity].
    - destruct Hp as [->|Hp]; [contradiction|]. rewrite IH; auto; [ring|]. intros j Hj. apply H. now right.
  Qed.

  Lemma cond_root x : cond root x = pr (cpt root (x root) 0%nat).
  Proof. unfold cond. rewrite root_par. reflexivity. Qed.
  Lemma cond_child i p x : par parents i = Z.of_nat p -> cond i x = pr (cpt i (x i) (x p)).
  Proof. intros E. unfold cond. rewrite E. destruct (Z.eqb_spec (Z.of_nat p) (-1)); [lia|]. now rewrite Nat2Z.id. Qed.
  Lemma cond_nonneg i x : 0 <= cond i x.
  Proof. unfold cond. destruct (Z.eqb _ _); apply pr_nonneg. Qed.
  Lemma J_nonneg pre x : 0 <= J pre x.
  Proof. apply lprod_nonneg. intros; apply cond_nonneg. Qed.

  Lemma ordered_prefix P l i : ordered parents root (P ++ l) -> In i P -> i = root \/ exists p, In p P /\ par parents i = Z.of_nat p.
  Proof.
    intros O Hi. destruct (in_split _ _ Hi) as (A & B & ->). destruct (O A i (B ++ l)) as [->|(p & Hp & E)].
    - now rewrite <- app_assoc. - now left. - right. exists p. split; [|assumption]. rewrite in_app_iff. now left.
  Qed.

  (** node [v] outside the prefix [P] is irrelevant for the conditionals of [P] *)
  Lemma cond_prefix P l v k x i : ordered parents root (P ++ l) -> ~ In v P -> In i P -> cond i (fupd x v k) = cond i x.
  Proof.
    intros O Hv Hi. assert (i <> v) as Ne by congruence. destruct (ordered_prefix P l i O Hi) as [->|(p & Hp & E)].
    - rewrite !cond_root, fupd_other by assumption. reflexivity.
    - rewrite !(cond_child i p) by assumption. rewrite !fupd_other by congruence. reflexivity.
  Qed.

  Definition value (s : bpstate) (P : list nat) (x : nat -> nat) : R :=
    lprod P (fun i => cond i x * pr (fst s i (x i))).

  Lemma value_nonneg s P x : 0 <= value s P x.
  Proof. apply lprod_nonneg. intros i _. apply Rmult_le_pos; [apply cond_nonneg|apply pr_nonneg]. Qed.

  Lemma bps_out l j : (forall i, In i l -> i <> root -> exists p, par parents i = Z.of_nat p /\ p <> j) ->
    forall k, fst (bps l) j k = Fin 0.
  Proof.
    induction l as [|i l IH]; intros H k; [reflexivity|]. cbn [bps fold_right].
    destruct (Nat.eq_dec i root) as [->|N].
    - rewrite step_root. apply IH. intros; apply H; [now right|assumption].
    - destruct (H i (or_introl eq_refl) N) as (p & E & Hp). rewrite (step_fst _ _ p) by assumption.
      destruct (Nat.eqb_spec j p); [congruence|]. apply IH. intros; apply H; [now right|assumption].
  Qed.

  (** splitting the aggregate at the first node of the suffix *)
  Lemma value_snoc P i l k x : NoDup (P ++ i :: l) -> ordered parents root (P ++ i :: l) -> i <> root ->
    forall p, par parents i = Z.of_nat p -> In p P ->
    value (bps l) (P ++ [i]) (fupd x i k) = value (bps l) P x * (pr (cpt i k (x p)) * pr (fst (bps l) i k)).
  Proof.
    intros N O Hr p E Hp. unfold value. rewrite lprod_app. cbn [lprod]. rewrite Rmult_1_r.
    pose proof (NoDup_remove_2 _ _ _ N) as Ni. rewrite in_app_iff in Ni.
    rewrite (cond_child i p) by assumption. rewrite fupd_same.
    assert (p <> i) as Np by (intros ->; tauto). rewrite fupd_other by assumption. f_equal.
    apply lprod_ext. intros j Hj. rewrite (cond_prefix P (i :: l)) by tauto.
    assert (j <> i) by (intros ->; tauto). rewrite fupd_other by assumption. reflexivity.
  Qed.
  Lemma value_step P i l x : NoDup (P ++ i :: l) -> ordered parents root (P ++ i :: l) -> i <> root ->
    forall p, par parents i = Z.of_nat p -> In p P ->
    value (bps (i :: l)) P x = value (bps l) P x * pr (msg (bps l) i (x p)).
  Proof.
    intros N O Hr p E Hp. unfold value. apply (lprod_at P p).
    - now apply NoDup_app_l in N.
    - assumption.
    - intros j Hj. cbn [bps fold_right]. rewrite (step_fst _ _ p) by assumption.
      destruct (Nat.eqb_spec j p) as [->|]; [|reflexivity]. rewrite pr_ladd. unfold bps. ring.
  Qed.

  Theorem elim_suffix l : forall P x, P <> [] -> NoDup (P ++ l) -> ordered parents root (P ++ l) -> In root P ->
    aggs l (J (P ++ l)) x = value (bps l) P x.
  Proof.
    induction l as [|i l IH]; intros P x HP N O Hroot.
    - cbn [aggs]. rewrite app_nil_r. unfold J, value. apply lprod_ext. intros i _. cbn. rewrite exp_0. ring.
    - cbn [aggs].
      assert (i <> root) as Ni by (intros ->; apply NoDup_remove_2 in N; apply N; rewrite in_app_iff; now left).
      destruct (O P i l eq_refl) as [?|(p & Hp & E)]; [contradiction|].
      rewrite (value_step P i l x N O Ni p E Hp), pr_msg, <- agg_scal by apply value_nonneg.
      apply agg_ext. intros k. rewrite <- (value_snoc P i l k x N O Ni p E Hp).
      replace (P ++ i :: l) with ((P ++ [i]) ++ l) in * by now rewrite <- app_assoc.
      rewrite IH; auto.
      + destruct P; discriminate.
      + rewrite in_app_iff. now left.
  Qed.

  (** the whole tree *)
  Lemma elim_all l x : NoDup (root :: l) -> ordered parents root (root :: l) ->
    aggs (root :: l) (J (root :: l)) x =
    agg root (fun k => pr (cpt root k 0%nat) * pr (fst (bps l) root k)).
  Proof.
    intros N O. cbn [aggs]. apply agg_ext. intros k.
    rewrite (elim_suffix l [root]); [|discriminate|assumption|assumption|now left].
    unfold value. cbn [lprod]. rewrite cond_root, fupd_same. ring.
  Qed.

  (** backpointers and child sums of node [i] are final once [i] is passed *)
  Lemma bps_stable P i l : NoDup (P ++ i :: l) -> ordered parents root (P ++ i :: l) -> 
    forall k, fst (bps (P ++ i :: l)) i k = fst (bps l) i k.
  Proof.
    intros N O. pose proof (NoDup_remove_2 _ _ _ N) as Ni. rewrite in_app_iff in Ni.
    assert (forall Q A, P ++ [i] = A ++ Q -> forall k, fst (bps (Q ++ l)) i k = fst (bps l) i k) as G.
    { induction Q as [|j Q IH]; intros A EA k; [reflexivity|]. cbn [app bps fold_right].
      change (fold_right _ bp0 (Q ++ l)) with (bps (Q ++ l)).
      destruct (O A j (Q ++ l)) as [->|(p & Hp & E)].
      - replace (P ++ i :: l) with ((P ++ [i]) ++ l) by now rewrite <- app_assoc. rewrite EA, <- app_assoc. reflexivity.
      - rewrite step_root. apply (IH (A ++ [root])). now rewrite <- app_assoc.
      - rewrite (step_fst _ _ p) by assumption. destruct (Nat.eqb_spec i p) as [->|].
        + exfalso. assert (In p P) as Hin; [|tauto].
          destruct (@exists_last _ (j :: Q)) as (T & b & EQ); [discriminate|].
          rewrite EQ, app_assoc in EA. apply app_inj_tail in EA. destruct EA as [-> _]. rewrite in_app_iff. now left.
        + apply (IH (A ++ [j])). now rewrite <- app_assoc. }
    intros k. replace (P ++ i :: l) with ((P ++ [i]) ++ l) by now rewrite <- app_assoc. now apply (G _ []).
  Qed.
  Lemma bk_stable P i l p : NoDup (P ++ i :: l) -> ordered parents root (P ++ i :: l) -> i <> root -> par parents i = Z.of_nat p ->
    forall k, snd (bps (P ++ i :: l)) i k =
      match ob i with Some xi => xi | None => if mpe then argmax K (fun xi => score (bps l) i xi k) else snd (bps l) i k end.
  Proof.
    intros N O Hr E k. pose proof (NoDup_remove_2 _ _ _ N) as Ni. rewrite in_app_iff in Ni.
    assert (forall Q A, P = A ++ Q -> snd (bps (Q ++ i :: l)) i k = snd (bps (i :: l)) i k) as G.
    { induction Q as [|j Q IH]; intros A EA; [reflexivity|]. cbn [app bps fold_right].
      change (fold_right _ bp0 (Q ++ i :: l)) with (bps (Q ++ i :: l)).
      assert (In j P) as Hj by (rewrite EA, in_app_iff; right; now left).
      destruct (O A j (Q ++ i :: l)) as [->|(q & Hq & Eq)].
      - now rewrite EA, <- app_assoc.
      - rewrite step_root. apply (IH (A ++ [root])). now rewrite <- app_assoc.
      - rewrite (step_snd _ _ q) by assumption. destruct (Nat.eqb_spec i j) as [->|]; [tauto|].
        apply (IH (A ++ [j])). now rewrite <- app_assoc. }
    rewrite (G P []) by reflexivity. cbn [bps fold_right]. rewrite (step_snd _ _ p) by assumption. now rewrite Nat.eqb_refl.
  Qed.
End Elim.
