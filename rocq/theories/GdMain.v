(** Lemmas for the theorems of P_Gd. *)
From Coq Require Import List Arith ZArith Bool Reals Lia Lra.
From Verif Require Import Base GdModel GdSpec GdProofs GdVal GdEpoch.
Import ListNotations.
Local Open Scope R_scope.

Section Main.
  Variables (X S : Type) (t : task X S) (data : list (batch X)) (p : S) (val : option (list (batch X))) (mode : bool).
  Notation train := (train_gradient_descent X S t data val).
  Notation E z := (Z.to_nat z).

  Definition accepts (epochs : Z) : Prop := (0 < epochs)%Z /\ (is_cls X S t = true -> is_classifier X S t = true).

  Lemma train_accept epochs : accepts epochs -> train epochs p mode = epochs_loop X S t data val (E epochs) 0 (start S p true).
  Proof.
    intros [H1 H2]. unfold train_gradient_descent. destruct (Z.leb_spec epochs 0) as [L|L]; [lia|].
    destruct (is_cls X S t); [rewrite H2 by reflexivity|]; reflexivity.
  Qed.
  Lemma train_reject epochs : ~ accepts epochs -> train epochs p mode = Raised (start S p mode).
  Proof.
    intros H. unfold train_gradient_descent. destruct (Z.leb_spec epochs 0) as [L|L]; [reflexivity|].
    destruct (is_cls X S t) eqn:C1; [|exfalso; apply H; split; [lia|congruence]].
    destruct (is_classifier X S t) eqn:C2; [exfalso; apply H; split; [lia|auto]|reflexivity].
  Qed.
  Lemma accepts_dec epochs : {accepts epochs} + {~ accepts epochs}.
  Proof.
    unfold accepts. destruct (Z_lt_dec 0 epochs) as [H|H]; [|right; tauto].
    destruct (is_cls X S t), (is_classifier X S t); [left|right|left|left]; try (split; [exact H|auto; congruence]).
    intros [_ K]. specialize (K eq_refl). discriminate K.
  Qed.
  Lemma train_done epochs s : train epochs p mode = Done s ->
    accepts epochs /\ pre X S t data p val (E epochs) s /\ inv X S t data p (E epochs - 1) (n X data) s /\
    (forall i, (i < E epochs)%nat -> epoch_ok X S t data p val i).
  Proof.
    intros H. destruct (accepts_dec epochs) as [A|A]; [|rewrite train_reject in H by exact A; discriminate H].
    split; [exact A|]. rewrite train_accept in H by exact A. pose proof (epochs_inv X S t data p val (E epochs) 0 _ (start_pre X S t data p val)) as I.
    rewrite H in I. cbn [plus] in I. destruct I as (P & I & O). split; [exact P|]. split; [apply I; destruct A; lia|]. intros i Hi. apply O. lia.
  Qed.
  Lemma train_raised epochs s : train epochs p mode = Raised s ->
    (~ accepts epochs /\ s = start S p mode) \/
    (accepts epochs /\ exists i, (i < E epochs)%nat /\ ~ epoch_ok X S t data p val i /\ (forall j, (j < i)%nat -> epoch_ok X S t data p val j) /\
       (exists j, (j <= n X data)%nat /\ inv X S t data p i j s) /\
       (training S s = true \/ exists vs, val = Some vs /\ vs <> [] /\ (i mod 10 = 0)%nat)).
  Proof.
    intros H. destruct (accepts_dec epochs) as [A|A].
    - right. split; [exact A|]. rewrite train_accept in H by exact A. pose proof (epochs_inv X S t data p val (E epochs) 0 _ (start_pre X S t data p val)) as I.
      rewrite H in I. cbn [plus] in I. destruct I as (i & Hi & NO & BE & J & TR). exists i. split; [lia|]. split; [exact NO|]. split; [intros j Hj; apply BE; lia|]. split; assumption.
    - left. split; [exact A|]. rewrite train_reject in H by exact A. now injection H as <-.
  Qed.
  Lemma train_done_iff epochs : (exists s, train epochs p mode = Done s) <-> accepts epochs /\ (forall i, (i < E epochs)%nat -> epoch_ok X S t data p val i).
  Proof.
    split.
    - intros (s & H). destruct (train_done _ _ H) as (A & _ & _ & O). now split.
    - intros (A & O). destruct (train epochs p mode) as [s|s] eqn:H; [eauto|]. exfalso.
      destruct (train_raised _ _ H) as [[NA _]|(_ & i & Hi & NO & _)]; [now apply NA|]. apply NO, O, Hi.
  Qed.
End Main.

(** the default learning rate *)
Fixpoint reached (ms : list nat) (k : nat) : nat := match ms with [] => 0%nat | m :: r => ((if Nat.leb m k then 1 else 0) + reached r k)%nat end.
Lemma reached_0 ms : reached ms 0 = count_occ Nat.eq_dec ms 0%nat.
Proof. induction ms as [|m ms IH]; [reflexivity|]. cbn [reached count_occ]. rewrite IH. destruct (Nat.eq_dec m 0) as [->|N]; [reflexivity|]. destruct m; [lia|reflexivity]. Qed.
Lemma reached_S ms k : reached ms (S k) = (reached ms k + count_occ Nat.eq_dec ms (S k))%nat.
Proof.
  induction ms as [|m ms IH]; [reflexivity|]. cbn [reached count_occ]. rewrite IH.
  destruct (Nat.eq_dec m (S k)) as [->|N].
  - rewrite Nat.leb_refl. destruct (Nat.leb_spec (S k) k); lia.
  - destruct (Nat.leb_spec m (S k)), (Nat.leb_spec m k); lia.
Qed.
Lemma multistep_reached lr g ms k : multistep lr g ms k = lr * g ^ reached ms k.
Proof.
  induction k as [|k IH]; cbn [multistep]; [now rewrite reached_0|]. rewrite IH, reached_S, pow_add. ring.
Qed.
