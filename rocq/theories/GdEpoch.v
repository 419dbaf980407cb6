(** One epoch, and all of them. *)
From Coq Require Import List Arith ZArith Bool Reals Lia Lra.
From Verif Require Import Base GdModel GdSpec GdProofs GdVal.
Import ListNotations.
Local Open Scope R_scope.

Section Loop.
  Variables (X S : Type) (t : task X S) (data : list (batch X)) (p : S) (val : option (list (batch X))).
  Notation steps := (steps X S t data p).
  Notation loss_at := (loss_at X S t data p).
  Notation n := (n X data).
  Notation state := (state S).
  Notation inv := (inv X S t data p).
  Notation same := (same S).
  Notation epoch_losses := (epoch_losses X S t data p).
  Notation validation_at := (validation_at X S t data p val).
  Notation epoch_ok := (epoch_ok X S t data p val).
  Notation batch_ok := (batch_ok X S t).

  Lemma inv_same e i s s' : inv e i s -> same s s' -> inv e i s'.
  Proof.
    intros [A1 A2 A3 A4 A5 A6 A7 A8] []. constructor; try congruence.
    - intros HC. rewrite <- A6 by exact HC. congruence.
    - intros HC. rewrite <- A7 by exact HC. congruence.
    - intros HC. rewrite <- A8 by exact HC. congruence.
  Qed.

  (** success of batches *)
  Lemma train_batch_done b s : (exists s', train_batch X S t b s = Done s') <-> batch_ok (params S s) b.
  Proof.
    unfold train_batch, GdSpec.batch_ok. destruct (extract (is_cls X S t) b) as [[x tg]|].
    - destruct (loss_of X S t (params S s) x tg) as [l|] eqn:EL.
      + destruct (update_train_batch _ _ _ _). split; [intros _; exists x, tg, l; now split|eauto].
      + split; [intros (s' & E); discriminate E|intros (x' & tg' & l & E & E2); injection E as <- <-; congruence].
    - split; [intros (s' & E); discriminate E|intros (x' & tg' & l & E & E2); discriminate E].
  Qed.
  Lemma val_batch_done b s : (exists s', val_batch X S t b s = Done s') <-> batch_ok (params S s) b.
  Proof.
    unfold val_batch, GdSpec.batch_ok. destruct (extract (is_cls X S t) b) as [[x tg]|].
    - destruct (loss_of X S t (params S s) x tg) as [l|] eqn:EL.
      + destruct (update_val_batch _ _ _ _). split; [intros _; exists x, tg, l; now split|eauto].
      + split; [intros (s' & E); discriminate E|intros (x' & tg' & l & E & E2); injection E as <- <-; congruence].
    - split; [intros (s' & E); discriminate E|intros (x' & tg' & l & E & E2); discriminate E].
  Qed.
  Lemma train_batches_done e : forall l i s, (i + length l = n)%nat -> (forall j b, nth_error l j = Some b -> nth_error data (i + j) = Some b) ->
    inv e i s -> sched S s = e ->
    ((exists s', train_batches X S t l s = Done s') <-> (forall j b, nth_error l j = Some b -> batch_ok (steps (e * n + i + j)) b)).
  Proof.
    induction l as [|b l IH]; intros i s L HN I HS; cbn [train_batches].
    - split; [intros _ [|j] b E; discriminate E|eauto].
    - cbn [length] in L. pose proof (train_batch_inv X S t data p e i b s ltac:(lia) ltac:(rewrite <- (Nat.add_0_r i); now apply HN) I HS) as B.
      pose proof (train_batch_done b s) as TD. rewrite (i_params _ _ _ _ _ _ _ _ I) in TD.
      destruct (train_batch X S t b s) as [s1|s1]; cbn [obind].
      + destruct B as (I1 & S1 & _). rewrite (IH (Datatypes.S i) s1) by (try lia; try assumption; intros j b' Hj; rewrite Nat.add_succ_comm; now apply HN).
        split.
        * intros H [|j] b' E; [injection E as <-; rewrite Nat.add_0_r; apply TD; eauto|]. cbn in E.
          replace (e * n + i + Datatypes.S j)%nat with (e * n + Datatypes.S i + j)%nat by lia. now apply H.
        * intros H j b' E. replace (e * n + Datatypes.S i + j)%nat with (e * n + i + Datatypes.S j)%nat by lia. now apply H.
      + split; [intros (s' & E); discriminate E|]. intros H. specialize (H 0%nat b eq_refl). rewrite Nat.add_0_r in H.
        apply TD in H. destruct H as (s' & E). discriminate E.
  Qed.
  Lemma val_batches_done : forall l s, val_losses (mets S s) = 1%nat ->
    ((exists s', val_batches X S t l s = Done s') <-> (forall b, In b l -> batch_ok (params S s) b)).
  Proof.
    induction l as [|b l IH]; intros s HV; cbn [val_batches].
    - split; [intros _ b []|eauto].
    - pose proof (val_batch_same X S t b s HV) as B. pose proof (val_batch_done b s) as VD.
      destruct (val_batch X S t b s) as [s1|s1]; cbn [obind].
      + destruct B as (SM & _). rewrite IH by (rewrite (m_vl _ _ _ SM); exact HV). rewrite (m_params _ _ _ SM). split.
        * intros H b' [<-|Hb]; [apply VD; eauto|now apply H].
        * intros H b' Hb. apply H. now right.
      + split; [intros (s' & E); discriminate E|]. intros H. specialize (H b (or_introl eq_refl)). apply VD in H. destruct H as (s' & E). discriminate E.
  Qed.
  Lemma run_validation_done vs s : val_losses (mets S s) = 1%nat ->
    ((exists s', run_validation X S t vs s = Done s') <-> vs <> [] /\ (forall b, In b vs -> batch_ok (params S s) b)).
  Proof.
    intros HV. unfold run_validation. pose proof (val_batches_done vs (set_mode S false s) HV) as D. change (params S (set_mode S false s)) with (params S s) in D.
    destruct (val_batches X S t vs (set_mode S false s)) as [s1|s1]; cbn [obind].
    - destruct vs as [|v vs].
      + split; [intros (s' & E); discriminate E|intros [H _]; now elim H].
      + split; [intros _; split; [discriminate|apply D; eauto]|eauto].
    - split; [intros (s' & E); discriminate E|]. intros [_ H]. apply D in H. destruct H as (s' & E). discriminate E.
  Qed.

  (** the state at the start of epoch [e] *)
  Record pre (e : nat) (s : state) : Prop := {
    p_params : params S s = steps (e * n);
    p_steps : training_steps (mets S s) = (e * n)%nat;
    p_tl : train_losses (mets S s) = 0%nat;
    p_vl : val_losses (mets S s) = 1%nat;
    p_sched : sched S s = e;
    p_mode : training S s = true;
    p_last : e <> 0%nat -> data <> [] -> last_loss S s <> None;
    p_none : data = [] -> last_loss S s = None;
    p_calls : cb_batch X S t = true -> train_calls (log S s) = map (fun k => (loss_at k, Datatypes.S k)) (seq 0 (e * n));
    p_vcalls : cb_batch X S t = true -> val_calls (log S s) = flat_map validation_at (seq 0 e);
    p_ecalls : cb_epoch X S t = true -> epoch_calls (log S s) = map (fun i => (epoch_losses i, i)) (seq 0 e);
    p_eobj : cb_epoch X S t = true -> epoch_objects (log S s) = repeat 0%nat e }.

  Definition log_epoch (e : nat) (s : state) : state :=
    if cb_epoch X S t then mkSt S (params S s) (mets S s) (objs S s) (last_loss S s) (training S s) (sched S s)
                     (log S s ++ [EvEpoch (train_losses (mets S s)) e (objs S s (train_losses (mets S s)))]) else s.

  Lemma epoch_inv e s : pre e s ->
    match epoch X S t data val e s with
    | Done s' => pre (Datatypes.S e) s' /\ inv e n s' /\ epoch_ok e
    | Raised s' => ~ epoch_ok e /\ (exists j, (j <= n)%nat /\ inv e j s') /\ (training S s' = true \/ exists vs, val = Some vs /\ vs <> [] /\ (e mod 10 = 0)%nat)
    end.
  Proof.
    intros [PP PS PT PV PSc PM PL PN PC PVC PE PO]. unfold epoch. unfold reset_epoch_metrics. cbv beta iota zeta. cbn [objs].
    set (s0 := mkSt _ _ _ _ _ _ _ _).
    assert (I0 : inv e 0 s0).
    { unfold s0. constructor; cbn [params mets objs log train_losses val_losses train_correct train_total training_steps]; rewrite ?Nat.add_0_r; try assumption; try reflexivity.
      rewrite PV, PT. reflexivity. }
    assert (HN : forall j b, nth_error data j = Some b -> nth_error data (0 + j) = Some b) by (intros; assumption).
    pose proof (train_batches_inv X S t data p e data 0 s0 eq_refl HN I0 PSc) as TB.
    pose proof (train_batches_done e data 0 s0 eq_refl HN I0 PSc) as TD. rewrite Nat.add_0_r in TD.
    destruct (train_batches X S t data s0) as [s1|s1]; cbn [obind].
    2:{ destruct TB as ((j & Hj & Ij) & TM). split; [|split; [exists j; split; [lia|exact Ij]|left; rewrite TM; exact PM]].
        intros (H & _). apply TD in H. destruct H as (s' & E). discriminate E. }
    destruct TB as (I1 & S1 & M1 & L1 & L2 & V1 & E1 & O1 & _).
    assert (OK1 : forall j b, nth_error data j = Some b -> batch_ok (steps (e * n + j)) b) by (apply TD; eauto). clear TD.
    set (s2 := mkSt _ _ _ _ _ _ (Datatypes.S (sched S s1)) _).
    assert (I2 : inv e n s2) by (destruct I1; constructor; assumption).
    assert (EN : (e * n + n = Datatypes.S e * n)%nat) by (cbn; lia).
    (* validation *)
    assert (VAL : match (match val with Some vs => if Nat.eqb (e mod 10) 0 then run_validation X S t vs s2 else Done s2 | None => Done s2 end) with
      | Done s3 => same s2 s3 /\ training S s3 = true /\ (cb_batch X S t = true -> val_calls (log S s3) = val_calls (log S s2) ++ validation_at e) /\
                   (forall vs, val = Some vs -> (e mod 10 = 0)%nat -> vs <> [] /\ forall b, In b vs -> batch_ok (steps (Datatypes.S e * n)) b)
      | Raised s3 => same s2 s3 /\ (training S s3 = true \/ exists vs, val = Some vs /\ vs <> [] /\ (e mod 10 = 0)%nat) /\
                   ~ (forall vs, val = Some vs -> (e mod 10 = 0)%nat -> vs <> [] /\ forall b, In b vs -> batch_ok (steps (Datatypes.S e * n)) b)
      end).
    { assert (TR2 : training S s2 = true) by (change (training S s1 = true); rewrite M1; exact PM).
      destruct val as [vs|] eqn:EV.
      - destruct (Nat.eqb (e mod 10) 0) eqn:EM.
        + apply Nat.eqb_eq in EM. pose proof (run_validation_same X S t vs s2 (i_vl _ _ _ _ _ _ _ _ I2)) as RV.
          pose proof (run_validation_done vs s2 (i_vl _ _ _ _ _ _ _ _ I2)) as RD. rewrite (i_params _ _ _ _ _ _ _ _ I2), EN in RD.
          destruct (run_validation X S t vs s2) as [s3|s3].
          * destruct RV as (NE & SM & TR & VC). split; [exact SM|]. split; [exact TR|]. split; [|intros vs' E _; injection E as <-; apply RD; eauto].
            intros HB. rewrite VC by exact HB. f_equal. unfold GdSpec.validation_at. rewrite EM. cbn [Nat.eqb]. apply map_ext. intros b.
            unfold vcall. rewrite (i_params _ _ _ _ _ _ _ _ I2), (i_steps _ _ _ _ _ _ _ _ I2), EN. reflexivity.
          * destruct RV as (SM & TR). split; [exact SM|]. split.
            { destruct vs as [|v vs]; [left; exact TR|right; exists (v :: vs); split; [reflexivity|split; [discriminate|exact EM]]]. }
            { intros H. specialize (H vs eq_refl EM). apply RD in H. destruct H as (s' & E). discriminate E. }
        + split; [apply same_refl|]. split; [exact TR2|]. split; [intros _; unfold GdSpec.validation_at; rewrite EM; now rewrite app_nil_r|].
          intros vs' _ E. rewrite E in EM. discriminate EM.
      - split; [apply same_refl|]. split; [exact TR2|]. split; [intros _; now rewrite app_nil_r|]. intros vs' E; discriminate E. }
    destruct (match val with Some vs => if Nat.eqb (e mod 10) 0 then run_validation X S t vs s2 else Done s2 | None => Done s2 end) as [s3|s3]; cbn [obind].
    2:{ destruct VAL as (SM & TR & NO). split; [intros (_ & H & _); now apply NO|]. split; [|exact TR]. exists n. split; [lia|]. eapply inv_same; eassumption. }
    destruct VAL as (SM & TR & VC & OKV).
    pose proof (inv_same _ _ _ _ I2 SM) as I3.
    change (if cb_epoch X S t then _ else s3) with (log_epoch e s3). set (s4 := log_epoch e s3).
    assert (I4 : inv e n s4).
    { unfold s4, log_epoch. destruct (cb_epoch X S t); [|exact I3]. destruct I3. constructor; try assumption.
      cbn [log]. rewrite train_calls_app. cbn [train_calls flat_map]. now rewrite app_nil_r. }
    assert (LL : last_loss S s4 = last_loss S s1).
    { transitivity (last_loss S s3); [unfold s4, log_epoch; destruct (cb_epoch X S t); reflexivity|]. exact (m_last _ _ _ SM). }
    assert (P4 : pre (Datatypes.S e) s4).
    { constructor.
      - rewrite (i_params _ _ _ _ _ _ _ _ I4), EN. reflexivity.
      - rewrite (i_steps _ _ _ _ _ _ _ _ I4), EN. reflexivity.
      - exact (i_tl _ _ _ _ _ _ _ _ I4).
      - exact (i_vl _ _ _ _ _ _ _ _ I4).
      - transitivity (sched S s3); [unfold s4, log_epoch; destruct (cb_epoch X S t); reflexivity|]. rewrite (m_sched _ _ _ SM). unfold s2. cbn [sched]. now rewrite S1.
      - transitivity (training S s3); [unfold s4, log_epoch; destruct (cb_epoch X S t); reflexivity|exact TR].
      - intros _ ND. rewrite LL. now apply L1.
      - intros ND. rewrite LL, L2 by exact ND. now apply PN.
      - intros HB. rewrite (i_calls _ _ _ _ _ _ _ _ I4 HB), EN. reflexivity.
      - intros HB. transitivity (val_calls (log S s3)); [unfold s4, log_epoch; destruct (cb_epoch X S t); [cbn [log]; rewrite val_calls_app; cbn [val_calls flat_map]; now rewrite app_nil_r|reflexivity]|].
        rewrite VC by exact HB. rewrite seq_snoc, flat_map_app. cbn [flat_map]. rewrite app_nil_r. f_equal.
        change (val_calls (log S s1) = flat_map validation_at (seq 0 e)). rewrite V1. now apply PVC.
      - intros HB. unfold s4, log_epoch. rewrite HB. cbn [log]. rewrite epoch_calls_app, (m_ecalls _ _ _ SM). change (log S s2) with (log S s1). rewrite E1. change (log S s0) with (log S s). rewrite PE by exact HB.
        rewrite seq_snoc, map_app. cbn [epoch_calls flat_map app map]. f_equal. f_equal. f_equal.
        rewrite (i_tl _ _ _ _ _ _ _ _ I3). exact (i_obj _ _ _ _ _ _ _ _ I3).
      - intros HB. unfold s4, log_epoch. rewrite HB. cbn [log]. rewrite epoch_objects_app, (m_eobj _ _ _ SM). change (log S s2) with (log S s1). rewrite O1. change (log S s0) with (log S s). rewrite PO by exact HB.
        cbn [epoch_objects flat_map app]. rewrite (i_tl _ _ _ _ _ _ _ _ I3). symmetry. exact (repeat_cons e 0%nat). }
    destruct (verbose X S t) eqn:EVB.
    - destruct (last_loss S s4) as [l|] eqn:ELL.
      + split; [exact P4|]. split; [exact I4|]. split; [exact OK1|]. split; [exact OKV|]. intros _ ND. pose proof (p_none _ _ P4 ND). congruence.
      + split; [intros (_ & _ & H)|split; [exists n; split; [lia|exact I4]|left; exact (p_mode _ _ P4)]].
        apply (p_last _ _ P4); [discriminate|now apply H|exact ELL].
    - split; [exact P4|]. split; [exact I4|]. split; [exact OK1|]. split; [exact OKV|]. intros H; congruence.
  Qed.

  Lemma epochs_inv : forall k e s, pre e s ->
    match epochs_loop X S t data val k e s with
    | Done s' => pre (e + k) s' /\ (k <> 0%nat -> inv (e + k - 1) n s') /\ (forall i, (e <= i < e + k)%nat -> epoch_ok i)
    | Raised s' => exists i, (e <= i < e + k)%nat /\ ~ epoch_ok i /\ (forall j, (e <= j < i)%nat -> epoch_ok j) /\ (exists j, (j <= n)%nat /\ inv i j s') /\
                   (training S s' = true \/ exists vs, val = Some vs /\ vs <> [] /\ (i mod 10 = 0)%nat)
    end.
  Proof.
    induction k as [|k IH]; intros e s P; cbn [epochs_loop].
    - rewrite Nat.add_0_r. split; [exact P|]. split; [intros H; now elim H|intros i H; lia].
    - pose proof (epoch_inv e s P) as E. destruct (epoch X S t data val e s) as [s1|s1]; cbn [obind].
      + destruct E as (P1 & I1 & OK). specialize (IH (Datatypes.S e) s1 P1). destruct (epochs_loop X S t data val k (Datatypes.S e) s1) as [s2|s2] eqn:EL.
        * destruct IH as (P2 & I2 & OK2). rewrite Nat.add_succ_r. split; [exact P2|]. split.
          { intros _. destruct k as [|k']; [cbn in EL; injection EL as <-; replace (Datatypes.S (e + 0) - 1)%nat with e by lia; exact I1|].
            replace (Datatypes.S (e + Datatypes.S k') - 1)%nat with (Datatypes.S e + Datatypes.S k' - 1)%nat by lia. now apply I2. }
          { intros i Hi. destruct (Nat.eq_dec i e) as [->|]; [exact OK|apply OK2; lia]. }
        * destruct IH as (i & Hi & NO & BE & J & TR). exists i. split; [lia|]. split; [exact NO|]. split; [|split; assumption].
          intros j Hj. destruct (Nat.eq_dec j e) as [->|]; [exact OK|apply BE; lia].
      + destruct E as (NO & J & TR). exists e. split; [lia|]. split; [exact NO|]. split; [intros j Hj; lia|split; assumption].
  Qed.

  Lemma start_pre : pre 0 (start S p true).
  Proof. constructor; try reflexivity. intros H; now elim H. Qed.
End Loop.
