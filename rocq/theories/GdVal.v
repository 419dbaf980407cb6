(** Validation leaves the training state alone. *)
From Coq Require Import List Arith ZArith Bool Reals Lia Lra.
From Verif Require Import Base GdModel GdSpec GdProofs.
Import ListNotations.
Local Open Scope R_scope.

Section Val.
  Variables (X S : Type) (t : task X S).
  Notation state := (state S).
  (** everything but the validation metrics, the mode and the validation callbacks *)
  Record same (s s' : state) : Prop := {
    m_params : params S s' = params S s;
    m_steps : training_steps (mets S s') = training_steps (mets S s);
    m_tl : train_losses (mets S s') = train_losses (mets S s);
    m_vl : val_losses (mets S s') = val_losses (mets S s);
    m_obj : objs S s' 0%nat = objs S s 0%nat;
    m_hit : train_correct (mets S s') = train_correct (mets S s);
    m_size : train_total (mets S s') = train_total (mets S s);
    m_tcalls : train_calls (log S s') = train_calls (log S s);
    m_ecalls : epoch_calls (log S s') = epoch_calls (log S s);
    m_eobj : epoch_objects (log S s') = epoch_objects (log S s);
    m_sched : sched S s' = sched S s;
    m_last : last_loss S s' = last_loss S s }.
  Lemma same_refl s : same s s.
  Proof. constructor; reflexivity. Qed.
  Lemma same_trans a b c : same a b -> same b c -> same a c.
  Proof. intros [] []; constructor; congruence. Qed.

  Definition vcall (s : state) (b : batch X) : R * nat := (loss_on X S t (params S s) (Some b), training_steps (mets S s)).

  Lemma val_batch_same b s : val_losses (mets S s) = 1%nat ->
    match val_batch X S t b s with
    | Done s' => same s s' /\ training S s' = training S s /\
        (cb_batch X S t = true -> val_calls (log S s') = val_calls (log S s) ++ [vcall s b]) /\
        objs S s' 1%nat = objs S s 1%nat ++ [loss_on X S t (params S s) (Some b)]
    | Raised s' => s' = s
    end.
  Proof.
    intros HV. unfold val_batch. destruct (extract (is_cls X S t) b) as [[x tg]|] eqn:EX; [|reflexivity].
    destruct (loss_of X S t (params S s) x tg) as [l|] eqn:EL; [|reflexivity].
    assert (LO : loss_on X S t (params S s) (Some b) = l) by (unfold loss_on, on_batch; rewrite EX, EL; reflexivity).
    unfold update_val_batch. destruct (match pts X S t (params S s) x tg with Some p0 => p0 | None => (0, 0)%nat end) as [c z] eqn:EP.
    cbv beta iota zeta. split; [|split; [reflexivity|split]].
    - constructor; cbn [params mets objs log train_losses val_losses train_correct train_total training_steps sched last_loss];
        try reflexivity.
      + rewrite HV. reflexivity.
      + rewrite train_calls_app. destruct (cb_batch X S t); cbn; now rewrite app_nil_r.
      + rewrite epoch_calls_app. destruct (cb_batch X S t); cbn; now rewrite app_nil_r.
      + rewrite epoch_objects_app. destruct (cb_batch X S t); cbn; now rewrite app_nil_r.
    - intros ->. cbn [log]. rewrite val_calls_app. cbn [val_calls flat_map app training_steps]. unfold vcall. now rewrite LO.
    - cbn [objs]. rewrite HV. unfold hset. cbn [Nat.eqb]. now rewrite LO.
  Qed.

  Lemma val_batches_same : forall l s, val_losses (mets S s) = 1%nat ->
    match val_batches X S t l s with
    | Done s' => same s s' /\ training S s' = training S s /\
        (cb_batch X S t = true -> val_calls (log S s') = val_calls (log S s) ++ map (vcall s) l)
    | Raised s' => same s s' /\ training S s' = training S s
    end.
  Proof.
    induction l as [|b l IH]; intros s HV; cbn [val_batches].
    - split; [apply same_refl|]. split; [reflexivity|]. intros _. cbn. now rewrite app_nil_r.
    - pose proof (val_batch_same b s HV) as B. destruct (val_batch X S t b s) as [s1|s1]; cbn [obind].
      + destruct B as (SM & TR & VC & _). specialize (IH s1 ltac:(rewrite (m_vl _ _ SM); exact HV)).
        destruct (val_batches X S t l s1) as [s2|s2].
        * destruct IH as (SM2 & TR2 & VC2). split; [eapply same_trans; eassumption|]. split; [congruence|].
          intros HB. rewrite VC2, VC by exact HB. rewrite <- app_assoc. cbn [map app]. f_equal. f_equal.
          apply map_ext. intros b'. unfold vcall. now rewrite (m_params _ _ SM), (m_steps _ _ SM).
        * destruct IH as (SM2 & TR2). split; [eapply same_trans; eassumption|congruence].
      + subst s1. split; [apply same_refl|reflexivity].
  Qed.

  Lemma same_mode m s : same s (set_mode S m s).
  Proof. constructor; reflexivity. Qed.

  Lemma run_validation_same vs s : val_losses (mets S s) = 1%nat ->
    match run_validation X S t vs s with
    | Done s' => vs <> [] /\ same s s' /\ training S s' = true /\
        (cb_batch X S t = true -> val_calls (log S s') = val_calls (log S s) ++ map (vcall s) vs)
    | Raised s' => same s s' /\ training S s' = match vs with [] => true | _ => false end
    end.
  Proof.
    intros HV. unfold run_validation. pose proof (val_batches_same vs (set_mode S false s) HV) as B.
    destruct (val_batches X S t vs (set_mode S false s)) as [s1|s1] eqn:EV; cbn [obind].
    - destruct B as (SM & TR & VC). destruct vs as [|v vs].
      + split; [|reflexivity]. eapply same_trans; [apply same_mode|]. eapply same_trans; [exact SM|apply same_mode].
      + split; [discriminate|]. split; [|split; [reflexivity|exact VC]].
        eapply same_trans; [apply same_mode|]. eapply same_trans; [exact SM|apply same_mode].
    - destruct B as (SM & TR). split; [eapply same_trans; [apply same_mode|exact SM]|].
      destruct vs as [|v vs]; [discriminate EV|exact TR].
  Qed.
End Val.
