(** The training loop performs plain stochastic gradient descent. *)
From Coq Require Import List Arith ZArith Bool Reals Lia Lra.
From Verif Require Import Base GdModel GdSpec.
Import ListNotations.
Local Open Scope R_scope.

Lemma train_calls_app a b : train_calls (a ++ b) = train_calls a ++ train_calls b.
Proof. apply flat_map_app. Qed.
Lemma val_calls_app a b : val_calls (a ++ b) = val_calls a ++ val_calls b.
Proof. apply flat_map_app. Qed.
Lemma epoch_calls_app a b : epoch_calls (a ++ b) = epoch_calls a ++ epoch_calls b.
Proof. apply flat_map_app. Qed.
Lemma epoch_objects_app a b : epoch_objects (a ++ b) = epoch_objects a ++ epoch_objects b.
Proof. apply flat_map_app. Qed.
Lemma seq_snoc n : seq 0 (Datatypes.S n) = seq 0 n ++ [n].
Proof. rewrite seq_S. reflexivity. Qed.

Section Loop.
  Variables (X S : Type) (t : task X S) (data : list (batch X)) (p : S).
  Notation steps := (steps X S t data p).
  Notation loss_at := (loss_at X S t data p).
  Notation n := (n X data).
  Notation state := (state S).

  Definition nsum (f : nat -> nat) (a k : nat) : nat := list_sum (map f (seq a k)).
  Lemma nsum_S f a k : nsum f a (Datatypes.S k) = (nsum f a k + f (a + k))%nat.
  Proof. unfold nsum. rewrite seq_S, map_app, list_sum_app. cbn. lia. Qed.

  (** after [k] training batches, [i] of them in the current epoch [e] *)
  Record inv (e i : nat) (s : state) : Prop := {
    i_params : params S s = steps (e * n + i);
    i_steps : training_steps (mets S s) = (e * n + i)%nat;
    i_tl : train_losses (mets S s) = 0%nat;
    i_vl : val_losses (mets S s) = 1%nat;
    i_obj : objs S s 0%nat = map (fun j => loss_at (e * n + j)) (seq 0 i);
    i_hit : is_cls X S t = true -> train_correct (mets S s) = nsum (hits_at X S t data p) (e * n) i;
    i_size : is_cls X S t = true -> train_total (mets S s) = nsum (size_at X S t data) (e * n) i;
    i_calls : cb_batch X S t = true -> train_calls (log S s) = map (fun k => (loss_at k, Datatypes.S k)) (seq 0 (e * n + i)) }.

  Lemma div_step e i : (i < n)%nat -> ((e * n + i) / n = e)%nat /\ ((e * n + i) mod n = i)%nat.
  Proof.
    intros H. split.
    - rewrite Nat.div_add_l by lia. rewrite Nat.div_small by exact H. lia.
    - rewrite Nat.add_comm, Nat.mod_add by lia. now apply Nat.mod_small.
  Qed.

  Lemma train_batch_inv e i b s : (i < n)%nat -> nth_error data i = Some b -> inv e i s -> sched S s = e ->
    match train_batch X S t b s with
    | Done s' => inv e (Datatypes.S i) s' /\ sched S s' = e /\ training S s' = training S s /\ last_loss S s' = Some (loss_at (e * n + i)) /\
                 val_calls (log S s') = val_calls (log S s) /\ epoch_calls (log S s') = epoch_calls (log S s) /\ epoch_objects (log S s') = epoch_objects (log S s) /\
                 objs S s' 1%nat = objs S s 1%nat
    | Raised s' => s' = s
    end.
  Proof.
    intros Hi Hb [IP IS IT IV IO IH IZ IC] HS. destruct (div_step e i Hi) as [DV MD].
    unfold train_batch. destruct (extract (is_cls X S t) b) as [[x tg]|] eqn:EX; [|reflexivity].
    destruct (loss_of X S t (params S s) x tg) as [l|] eqn:EL; [|reflexivity].
    assert (LA : loss_at (e * n + i) = l).
    { unfold GdSpec.loss_at, loss_on, on_batch. rewrite MD, Hb, EX, <- IP, EL. reflexivity. }
    assert (ST : steps (e * n + Datatypes.S i) = opt_step X S t (rate X S t e) (params S s) x tg).
    { rewrite Nat.add_succ_r. cbn [GdSpec.steps]. unfold on_batch. rewrite DV, MD, Hb, EX, <- IP. reflexivity. }
    assert (HA : is_cls X S t = true -> forall y, tg = Some y -> hits_at X S t data p (e * n + i) = hits X S t (params S s) x y /\ size_at X S t data (e * n + i) = size X S t y).
    { intros HC y ->. unfold hits_at, size_at, on_batch. rewrite MD, Hb, EX, <- IP. split; reflexivity. }
    assert (TG : is_cls X S t = true -> exists y, tg = Some y).
    { intros HC. unfold extract in EX. rewrite HC in EX. destruct b as [x0|[|x0 [|y0 [|z l0]]]]; try discriminate. injection EX as <- <-. eauto. }
    unfold update_train_batch, pts. set (pt := if is_cls X S t then _ else _).
    destruct (match pt with Some p0 => p0 | None => (0, 0)%nat end) as [c z] eqn:EP. cbv beta iota zeta.
    split; [|repeat split; cbn [sched training last_loss log]; rewrite ?val_calls_app, ?epoch_calls_app, ?epoch_objects_app].
    - constructor; cbn [params mets objs log train_losses val_losses train_correct train_total training_steps].
      + rewrite HS, ST. reflexivity.
      + rewrite IS. lia.
      + exact IT.
      + exact IV.
      + rewrite IT. unfold hset. cbn [Nat.eqb]. rewrite IO, seq_snoc, map_app. cbn [map]. now rewrite LA.
      + intros HC. rewrite nsum_S, IH by exact HC. destruct (TG HC) as (y & Ey). destruct (HA HC y Ey) as [H1 _]. rewrite H1.
        unfold pt in EP. rewrite HC, Ey in EP. injection EP as <- <-. reflexivity.
      + intros HC. rewrite nsum_S, IZ by exact HC. destruct (TG HC) as (y & Ey). destruct (HA HC y Ey) as [_ H1]. rewrite H1.
        unfold pt in EP. rewrite HC, Ey in EP. injection EP as <- <-. reflexivity.
      + intros HB. rewrite train_calls_app, IC by exact HB. rewrite HB. cbn [train_calls flat_map app]. rewrite Nat.add_succ_r, seq_snoc, map_app. cbn [map]. now rewrite LA, IS.
    - exact HS.
    - now rewrite LA.
    - destruct (cb_batch X S t); cbn; now rewrite app_nil_r.
    - destruct (cb_batch X S t); cbn; now rewrite app_nil_r.
    - destruct (cb_batch X S t); cbn; now rewrite app_nil_r.
    - cbn [objs]. unfold hset. rewrite IT. reflexivity.
  Qed.

  Lemma train_batches_inv e : forall l i s, (i + length l = n)%nat -> (forall j b, nth_error l j = Some b -> nth_error data (i + j) = Some b) ->
    inv e i s -> sched S s = e ->
    match train_batches X S t l s with
    | Done s' => inv e n s' /\ sched S s' = e /\ training S s' = training S s /\
                 (l <> [] -> last_loss S s' <> None) /\ (l = [] -> last_loss S s' = last_loss S s) /\
                 val_calls (log S s') = val_calls (log S s) /\ epoch_calls (log S s') = epoch_calls (log S s) /\ epoch_objects (log S s') = epoch_objects (log S s) /\
                 objs S s' 1%nat = objs S s 1%nat
    | Raised s' => (exists j, (i <= j < n)%nat /\ inv e j s') /\ training S s' = training S s
    end.
  Proof.
    induction l as [|b l IH]; intros i s L HN I HS; cbn [train_batches].
    - cbn in L. rewrite Nat.add_0_r in L. subst i. split; [exact I|]. split; [exact HS|]. repeat split. intros X0; now elim X0.
    - cbn [length] in L. pose proof (train_batch_inv e i b s ltac:(lia) ltac:(rewrite <- (Nat.add_0_r i); now apply HN) I HS) as B.
      destruct (train_batch X S t b s) as [s1|s1]; cbn [obind].
      + destruct B as (I1 & S1 & T1 & LL & V1 & E1 & O1 & H1). specialize (IH (Datatypes.S i) s1 ltac:(lia)).
        specialize (IH ltac:(intros j b' Hj; rewrite Nat.add_succ_comm; now apply HN) I1 S1).
        destruct (train_batches X S t l s1) as [s2|s2].
        * destruct IH as (I2 & S2 & T2 & N2 & N3 & V2 & E2 & O2 & H2). split; [exact I2|]. split; [exact S2|]. split; [congruence|]. split; [|split; [discriminate|repeat split; congruence]].
          { intros _. destruct l as [|b' l']; [rewrite N3 by reflexivity; congruence|apply N2; discriminate]. }
        * destruct IH as ((j & Hj & I2) & T2). split; [exists j; split; [lia|exact I2]|congruence].
      + subst s1. split; [|reflexivity]. exists i. split; [lia|exact I].
  Qed.
End Loop.
