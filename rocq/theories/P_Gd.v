(** C221-C230: training by gradient descent (train_gradient_descent). *)
From Coq Require Import List Arith ZArith Bool Reals Lia Lra.
From Verif Require Import Base GdModel GdSpec GdProofs GdVal GdEpoch GdMain.
Import ListNotations.
Local Open Scope R_scope.

(** C221: when training returns, it has performed plain gradient descent: [epochs]
    passes over the batches in order, one optimiser step per batch, at the learning rate
    of that epoch; the batch callback was called once per step, with the loss before the
    step and the step number; the scheduler was stepped once per epoch; the model is in
    training mode *)
Theorem C221_gradient_descent : forall X S (t : task X S) data val epochs p mode s,
  train_gradient_descent X S t data val epochs p mode = Done s ->
  params S s = steps X S t data p (Z.to_nat epochs * length data) /\
  sched S s = Z.to_nat epochs /\ training S s = true /\
  (cb_batch X S t = true ->
     train_calls (log S s) = map (fun k => (loss_at X S t data p k, Datatypes.S k)) (seq 0 (Z.to_nat epochs * length data))).
Proof.
  intros X S t data val epochs p mode s H. destruct (train_done X S t data p val mode epochs s H) as (_ & P & _ & _).
  split; [exact (p_params _ _ _ _ _ _ _ _ P)|]. split; [exact (p_sched _ _ _ _ _ _ _ _ P)|]. split; [exact (p_mode _ _ _ _ _ _ _ _ P)|].
  exact (p_calls _ _ _ _ _ _ _ _ P).
Qed.

(** C222: training returns exactly if [epochs] is positive, a classification task gets a
    classifier, every batch has the right shape, every loss is defined, no validation
    loader that is due is empty, and the training loader is not empty when verbose *)
Theorem C222_succeeds_iff : forall X S (t : task X S) data val epochs p mode,
  (exists s, train_gradient_descent X S t data val epochs p mode = Done s) <->
  (0 < epochs)%Z /\ (is_cls X S t = true -> is_classifier X S t = true) /\
  (verbose X S t = true -> data <> []) /\
  (forall e j b, (e < Z.to_nat epochs)%nat -> nth_error data j = Some b -> batch_ok X S t (steps X S t data p (e * length data + j)) b) /\
  (forall vs, val = Some vs -> vs <> [] /\
     forall e b, (e < Z.to_nat epochs)%nat -> (e mod 10 = 0)%nat -> In b vs -> batch_ok X S t (steps X S t data p (Datatypes.S e * length data)) b).
Proof.
  intros X S t data val epochs p mode. rewrite train_done_iff. unfold accepts, epoch_ok. split.
  - intros ((H1 & H2) & H). split; [exact H1|]. split; [exact H2|]. split; [apply (H 0%nat ltac:(lia))|]. split.
    + intros e j b He. apply H, He.
    + intros vs Ev. split; [apply (H 0%nat ltac:(lia)); [exact Ev|reflexivity]|]. intros e b He Hm. now apply (H e He).
  - intros (H1 & H2 & H3 & H4 & H5). split; [now split|]. intros e He. split; [intros j b; now apply H4|]. split; [|exact H3].
    intros vs Ev Hm. destruct (H5 vs Ev) as [N O]. split; [exact N|]. intros b. now apply O.
Qed.

(** C222: which batches have the right shape: classification wants exactly (data,
    targets); density estimation a bare tensor or a tuple of one or two, and then the
    targets are ignored *)
Theorem C222_batches : forall X (b : batch X) (x : X) (tg : option X),
  (extract true b = Ok (x, tg) <-> exists y, b = Tup [x; y] /\ tg = Some y) /\
  (extract false b = Ok (x, tg) <-> tg = None /\ (b = Bare x \/ b = Tup [x] \/ exists y, b = Tup [x; y])).
Proof.
  intros X b x tg. split; split.
  - cbn [extract]. destruct b as [z|[|z [|y [|w l]]]]; try discriminate. intros [= <- <-]. exists y. auto.
  - intros (y & -> & ->). reflexivity.
  - cbn [extract]. destruct b as [z|[|z [|y [|w l]]]]; try discriminate; intros [= <- <-]; (split; [reflexivity|]); auto. right. right. now exists y.
  - intros (-> & [->|[->|(y & ->)]]); reflexivity.
Qed.

(** C223: the epoch callback is called once per epoch, in order, and sees the losses of
    that epoch's training batches *)
Theorem C223_epoch_callback : forall X S (t : task X S) data val epochs p mode s,
  cb_epoch X S t = true -> train_gradient_descent X S t data val epochs p mode = Done s ->
  epoch_calls (log S s) = map (fun e => (map (fun j => loss_at X S t data p (e * length data + j)) (seq 0 (length data)), e)) (seq 0 (Z.to_nat epochs)).
Proof.
  intros X S t data val epochs p mode s HC H. destruct (train_done X S t data p val mode epochs s H) as (_ & P & _ & _).
  exact (p_ecalls _ _ _ _ _ _ _ _ P HC).
Qed.

(** C224: but every call gets the same list object, which ends up holding the last epoch *)
Theorem C224_one_object : forall X S (t : task X S) data val epochs p mode s r e seen,
  train_gradient_descent X S t data val epochs p mode = Done s -> In (EvEpoch r e seen) (log S s) ->
  objs S s r = map (fun j => loss_at X S t data p ((Z.to_nat epochs - 1) * length data + j)) (seq 0 (length data)).
Proof.
  intros X S t data val epochs p mode s r e seen H HI. destruct (train_done X S t data p val mode epochs s H) as ((A & _) & P & I & _).
  assert (R0 : r = 0%nat).
  { destruct (cb_epoch X S t) eqn:C.
    - assert (IR : In r (epoch_objects (log S s))) by (unfold epoch_objects; rewrite in_flat_map; exists (EvEpoch r e seen); split; [exact HI|now left]).
      rewrite (p_eobj _ _ _ _ _ _ _ _ P C) in IR. now apply repeat_spec in IR.
    - exfalso. rewrite train_accept in H by (split; [exact A|]; destruct (train_done X S t data p val mode epochs s H) as ((_ & K) & _); exact K).
      assert (G : forall k i s0 s1, ~ In (EvEpoch r e seen) (log S s0) -> epochs_loop X S t data val k i s0 = Done s1 -> ~ In (EvEpoch r e seen) (log S s1)).
      { assert (TB : forall l s0 s1, ~ In (EvEpoch r e seen) (log S s0) -> train_batches X S t l s0 = Done s1 -> ~ In (EvEpoch r e seen) (log S s1)).
        { induction l as [|b l IH]; intros s0 s1 N E; cbn [train_batches] in E; [injection E as <-; exact N|].
          unfold train_batch in E. destruct (extract (is_cls X S t) b) as [[x tg]|]; [|discriminate E].
          destruct (loss_of X S t (params S s0) x tg) as [l0|]; [|discriminate E]. destruct (update_train_batch _ _ _ _) as [m h]. cbn [obind] in E.
          eapply IH; [|exact E]. cbn [log]. intros K. apply in_app_iff in K. destruct K as [K|K]; [now apply N|]. destruct (cb_batch X S t); [destruct K as [K|[]]; discriminate K|exact K]. }
        assert (VB : forall l s0 s1, ~ In (EvEpoch r e seen) (log S s0) -> val_batches X S t l s0 = Done s1 -> ~ In (EvEpoch r e seen) (log S s1)).
        { induction l as [|b l IH]; intros s0 s1 N E; cbn [val_batches] in E; [injection E as <-; exact N|].
          unfold val_batch in E. destruct (extract (is_cls X S t) b) as [[x tg]|]; [|discriminate E].
          destruct (loss_of X S t (params S s0) x tg) as [l0|]; [|discriminate E]. destruct (update_val_batch _ _ _ _) as [m h]. cbn [obind] in E.
          eapply IH; [|exact E]. cbn [log]. intros K. apply in_app_iff in K. destruct K as [K|K]; [now apply N|]. destruct (cb_batch X S t); [destruct K as [K|[]]; discriminate K|exact K]. }
        induction k as [|k IH]; intros i s0 s1 N E; cbn [epochs_loop] in E; [injection E as <-; exact N|].
        destruct (epoch X S t data val i s0) as [s2|s2] eqn:EE; cbn [obind] in E; [|discriminate E]. eapply IH; [|exact E].
        unfold epoch, reset_epoch_metrics in EE. cbv beta iota zeta in EE. rewrite C in EE.
        match type of EE with obind _ (train_batches X S t data ?q) _ = _ => destruct (train_batches X S t data q) as [s3|s3] eqn:E3; cbn [obind] in EE; [|discriminate EE]; pose proof (TB data q s3 N E3) as N3 end.
        match type of EE with obind _ ?q _ = _ => destruct q as [s4|s4] eqn:E4; cbn [obind] in EE; [|discriminate EE] end.
        assert (N4 : ~ In (EvEpoch r e seen) (log S s4)).
        { destruct val as [vs|]; [|injection E4 as <-; exact N3]. destruct (Nat.eqb (i mod 10) 0); [|injection E4 as <-; exact N3].
          unfold run_validation in E4. match type of E4 with obind _ (val_batches X S t vs ?q) _ = _ => destruct (val_batches X S t vs q) as [s5|s5] eqn:E5; cbn [obind] in E4; [|discriminate E4]; pose proof (VB vs q s5 N3 E5) as N5 end.
          destruct vs; [discriminate E4|injection E4 as <-]. exact N5. }
        destruct (verbose X S t); [destruct (last_loss S s4); [|discriminate EE]|]; injection EE as <-; exact N4. }
      eapply G; [|exact H|exact HI]. intros []. }
  rewrite R0. exact (i_obj _ _ _ _ _ _ _ _ I).
Qed.

(** C225: validation runs after epochs 0, 10, 20, ... only; it calls the batch callback
    with each validation loss under the parameters reached, and the number of training
    steps done (so step numbers repeat) *)
Theorem C225_validation_schedule : forall X S (t : task X S) data val epochs p mode s,
  cb_batch X S t = true -> train_gradient_descent X S t data val epochs p mode = Done s ->
  val_calls (log S s) = flat_map (validation_at X S t data p val) (seq 0 (Z.to_nat epochs)).
Proof.
  intros X S t data val epochs p mode s HC H. destruct (train_done X S t data p val mode epochs s H) as (_ & P & _ & _).
  exact (p_vcalls _ _ _ _ _ _ _ _ P HC).
Qed.
(** and does not influence the training: without the validation loader the same
    parameters are reached, and the training and epoch callbacks see the same *)
Theorem C225_no_influence : forall X S (t : task X S) data val epochs p mode s,
  train_gradient_descent X S t data val epochs p mode = Done s ->
  exists s', train_gradient_descent X S t data None epochs p mode = Done s' /\ params S s' = params S s /\
    (cb_batch X S t = true -> train_calls (log S s') = train_calls (log S s)) /\
    (cb_epoch X S t = true -> epoch_calls (log S s') = epoch_calls (log S s)).
Proof.
  intros X S t data val epochs p mode s H. destruct (train_done X S t data p val mode epochs s H) as (A & P & _ & O).
  assert (D : exists s', train_gradient_descent X S t data None epochs p mode = Done s').
  { apply train_done_iff. split; [exact A|]. intros i Hi. destruct (O i Hi) as (O1 & _ & O3). split; [exact O1|]. split; [intros vs E; discriminate E|exact O3]. }
  destruct D as (s' & D). exists s'. split; [exact D|]. destruct (train_done X S t data p None mode epochs s' D) as (_ & P' & _ & _).
  split; [rewrite (p_params _ _ _ _ _ _ _ _ P), (p_params _ _ _ _ _ _ _ _ P'); reflexivity|]. split; intros HC.
  - rewrite (p_calls _ _ _ _ _ _ _ _ P HC), (p_calls _ _ _ _ _ _ _ _ P' HC). reflexivity.
  - rewrite (p_ecalls _ _ _ _ _ _ _ _ P HC), (p_ecalls _ _ _ _ _ _ _ _ P' HC). reflexivity.
Qed.

(** C226: whenever training stops with an exception, the parameters are those of some
    number [k] of complete steps, the batch callback was called exactly for these, and no
    step was done if the arguments were rejected *)
Theorem C226_exceptions : forall X S (t : task X S) data val epochs p mode s,
  train_gradient_descent X S t data val epochs p mode = Raised s ->
  exists k, (k <= Z.to_nat epochs * length data)%nat /\ params S s = steps X S t data p k /\
    (cb_batch X S t = true -> train_calls (log S s) = map (fun k => (loss_at X S t data p k, Datatypes.S k)) (seq 0 k)) /\
    ((epochs <= 0)%Z \/ (is_cls X S t = true /\ is_classifier X S t = false) -> k = 0%nat /\ training S s = mode /\ log S s = []).
Proof.
  intros X S t data val epochs p mode s H. destruct (train_raised X S t data p val mode epochs s H) as [(NA & ->)|((A1 & A2) & i & Hi & _ & _ & (j & Hj & I) & _)].
  - exists 0%nat. split; [lia|]. split; [reflexivity|]. split; [reflexivity|]. intros _. repeat split.
  - exists (i * length data + j)%nat. split; [|split; [exact (i_params _ _ _ _ _ _ _ _ I)|split; [exact (i_calls _ _ _ _ _ _ _ _ I)|]]].
    + change (j <= length data)%nat in Hj. nia.
    + intros [Z0|[C1 C2]]; [lia|]. rewrite A2 in C2 by exact C1. discriminate C2.
Qed.

(** C228: the logged training accuracy is the percentage of correct predictions in the
    last epoch, each made before its batch's update; it lies between 0 and 100 *)
Theorem C228_accuracy : forall X S (t : task X S) data val epochs p mode s,
  is_cls X S t = true -> train_gradient_descent X S t data val epochs p mode = Done s ->
  let ks := seq ((Z.to_nat epochs - 1) * length data) (length data) in
  let total := list_sum (map (size_at X S t data) ks) in
  get_train_accuracy (mets S s) = (if Nat.eqb total 0 then 0 else 100 * INR (list_sum (map (hits_at X S t data p) ks)) / INR total) /\
  ((forall q x y, (hits X S t q x y <= size X S t y)%nat) -> 0 <= get_train_accuracy (mets S s) <= 100).
Proof.
  intros X S t data val epochs p mode s HC H ks total. destruct (train_done X S t data p val mode epochs s H) as (_ & _ & I & _).
  pose proof (i_hit _ _ _ _ _ _ _ _ I HC) as H1. pose proof (i_size _ _ _ _ _ _ _ _ I HC) as H2. unfold nsum in H1, H2.
  unfold get_train_accuracy. rewrite H1, H2. change (n X data) with (length data). change (list_sum (map (size_at X S t data) (seq _ _))) with total.
  change (seq _ _) with ks. split.
  - destruct (Nat.eqb_spec total 0) as [->|N]; [reflexivity|]. destruct (Nat.ltb_spec 0 total); [reflexivity|lia].
  - intros HL. destruct (Nat.ltb_spec 0 total) as [L|L]; [|lra].
    assert (LE : (list_sum (map (hits_at X S t data p) ks) <= total)%nat).
    { unfold total. clear - HL. induction ks as [|k ks IH]; [apply le_n|]. cbn [map list_sum fold_right]. apply Nat.add_le_mono; [|exact IH].
      unfold hits_at, size_at, on_batch. destruct (nth_error data _) as [b|]; [|lia]. destruct (extract _ b) as [[x [y|]]|]; [apply HL|lia|lia]. }
    apply le_INR in LE. apply lt_INR in L. cbn [INR] in L. split.
    + apply Rmult_le_pos; [apply Rmult_le_pos; [lra|apply pos_INR]|]. left. now apply Rinv_0_lt_compat.
    + apply (Rmult_le_reg_r (INR total)); [exact L|]. unfold Rdiv. rewrite Rmult_assoc, Rinv_l by lra. lra.
Qed.

(** C229: with at least two epochs the default learning rate is [lr] in the first half,
    a tenth of it up to three quarters, and a hundredth after that *)
Theorem C229_default_rate : forall lr epochs e, (2 <= epochs)%nat -> (e < epochs)%nat ->
  default_rate lr epochs e = (if Nat.ltb e (epochs / 2) then lr else if Nat.ltb e (3 * epochs / 4) then lr / 10 else lr / 100).
Proof.
  intros lr epochs e HE He. unfold default_rate. rewrite multistep_reached. unfold milestones. cbn [reached].
  assert (M : (epochs / 2 <= 3 * epochs / 4)%nat).
  { apply Nat.div_le_lower_bound; [lia|]. pose proof (Nat.div_mod epochs 2 ltac:(lia)). lia. }
  destruct (Nat.leb_spec (epochs / 2) e), (Nat.ltb_spec e (epochs / 2)), (Nat.leb_spec (3 * epochs / 4) e), (Nat.ltb_spec e (3 * epochs / 4)); try (exfalso; lia); cbn [Nat.add pow]; lra.
Qed.

(** * Examples and refutations *)

(** the parameters count the steps; the loss is the count *)
Definition count_task (fails : nat -> bool) : task unit nat :=
  mkTask unit nat false false (fun s _ _ => if fails s then Err else Ok (INR s)) (fun _ _ _ => 0%nat) (fun _ => 0%nat) (fun _ s _ _ => Datatypes.S s) (fun _ => 1) true true true.
Definition never : nat -> bool := fun _ => false.
Lemma never_ok s b : batch_ok unit nat (count_task never) s (Bare b).
Proof. exists b, None, (INR s). split; reflexivity. Qed.

Example training_ex : exists s, train_gradient_descent unit nat (count_task never) [Bare tt; Bare tt] (Some [Bare tt]) 11%Z 0%nat false = Done s /\
  params nat s = 22%nat /\ val_calls (log nat s) = [(INR 2, 2%nat); (INR 22, 22%nat)].
Proof.
  destruct (proj2 (C222_succeeds_iff unit nat (count_task never) [Bare tt; Bare tt] (Some [Bare tt]) 11 0%nat false)) as (s & D).
  - split; [lia|]. split; [intros C; discriminate C|]. split; [discriminate|]. split.
    + intros e [|[|[|j]]] b He Hb; try discriminate Hb; injection Hb as <-; apply never_ok.
    + intros vs Ev. injection Ev as <-. split; [discriminate|]. intros e b _ _ [<-|[]]. apply never_ok.
  - exists s. split; [exact D|]. split.
    + rewrite (proj1 (C221_gradient_descent _ _ _ _ _ _ _ _ _ D)). reflexivity.
    + rewrite (C225_validation_schedule _ _ (count_task never) _ _ _ _ _ _ eq_refl D). reflexivity.
Qed.

(** C224 (refuted): the list an epoch callback received still holds that epoch's losses
    when training is over *)
Theorem C224_kept_lists_refuted : ~ (forall X S (t : task X S) data val epochs p mode s r e seen,
  train_gradient_descent X S t data val epochs p mode = Done s -> In (EvEpoch r e seen) (log S s) -> objs S s r = seen).
Proof.
  intros K. destruct (proj2 (C222_succeeds_iff unit nat (count_task never) [Bare tt] None 2 0%nat true)) as (s & D).
  - split; [lia|]. split; [intros C; discriminate C|]. split; [discriminate|]. split; [|intros vs E; discriminate E].
    intros e [|[|j]] b He Hb; try discriminate Hb; injection Hb as <-; apply never_ok.
  - pose proof (C223_epoch_callback _ _ (count_task never) _ _ _ _ _ _ eq_refl D) as EC.
    assert (IN : In ([INR 0], 0%nat) (epoch_calls (log nat s))) by (rewrite EC; left; reflexivity).
    unfold epoch_calls in IN. apply in_flat_map in IN. destruct IN as (v & Hv & IN). destruct v as [b0 l0 s0|r e seen]; [destruct IN as []|].
    destruct IN as [IN|[]]. injection IN as -> ->. pose proof (K _ _ _ _ _ _ _ _ _ _ _ _ D Hv) as K1.
    rewrite (C224_one_object _ _ _ _ _ _ _ _ _ _ _ _ D Hv) in K1. injection K1 as K1.
    change (INR 1 = INR 0) in K1. cbn [INR] in K1. lra.
Qed.

(** C227 (refuted): a model is left in training mode even if training stops with an
    exception (a loss failing in validation leaves it in evaluation mode) *)
Theorem C227_mode_refuted : ~ (forall X S (t : task X S) data val epochs p s,
  train_gradient_descent X S t data val epochs p true = Raised s -> training S s = true).
Proof.
  intros K. specialize (K unit nat (count_task (fun s => Nat.eqb s 1)) [Bare tt] (Some [Bare tt]) 1%Z 0%nat _ eq_refl). discriminate K.
Qed.
(** and an empty validation loader makes training raise, after the first epoch *)
Theorem C227_empty_loader_raises : forall X S (t : task X S) data epochs p mode,
  exists s, train_gradient_descent X S t data (Some []) epochs p mode = Raised s.
Proof.
  intros. destruct (train_gradient_descent X S t data (Some []) epochs p mode) as [s|s] eqn:D; [|eauto]. exfalso.
  destruct (proj1 (C222_succeeds_iff X S t data (Some []) epochs p mode) (ex_intro _ s D)) as (_ & _ & _ & _ & H). destruct (H [] eq_refl) as [N _]. now apply N.
Qed.

(** C230 (refuted): the default learning rate starts at [lr]: a single epoch runs at [lr / 100] *)
Theorem C230_first_rate_refuted : ~ (forall lr epochs, (1 <= epochs)%nat -> default_rate lr epochs 0 = lr).
Proof.
  intros K. specialize (K 1 1%nat ltac:(lia)). unfold default_rate in K. rewrite multistep_reached in K. change (reached (milestones 1) 0) with 2%nat in K. cbn [pow] in K. lra.
Qed.
Theorem C230_single_epoch : forall lr, default_rate lr 1 0 = lr / 100.
Proof. intros lr. unfold default_rate. rewrite multistep_reached. change (reached (milestones 1) 0) with 2%nat. cbn [pow]. lra. Qed.
Example default_rate_ex : forall lr, map (default_rate lr 4) (seq 0 4) = [lr; lr; lr / 10; lr / 100].
Proof. intros lr. cbn [seq map]. rewrite !C229_default_rate by lia. reflexivity. Qed.

(** a classification task meeting C228 *)
Definition cls_task : task nat nat :=
  mkTask nat nat true true (fun s x _ => Ok 1) (fun s x y => if Nat.eqb x y then 1%nat else 0%nat) (fun _ => 1%nat) (fun _ s _ _ => s) (fun _ => 1) false false false.
Example accuracy_ex : exists s, train_gradient_descent nat nat cls_task [Tup [3; 3]%nat; Tup [4; 5]%nat] None 2%Z 0%nat false = Done s /\ get_train_accuracy (mets nat s) = 50.
Proof.
  destruct (proj2 (C222_succeeds_iff nat nat cls_task [Tup [3; 3]%nat; Tup [4; 5]%nat] None 2 0%nat false)) as (s & D).
  - split; [lia|]. split; [reflexivity|]. split; [discriminate|]. split; [|intros vs E; discriminate E].
    intros e [|[|[|j]]] b He Hb; try discriminate Hb; injection Hb as <-; [exists 3%nat, (Some 3%nat), 1|exists 4%nat, (Some 5%nat), 1]; split; reflexivity.
  - exists s. split; [exact D|]. rewrite (proj1 (C228_accuracy _ _ cls_task _ _ _ _ _ _ eq_refl D)).
    change (100 * INR 1 / INR 2 = 50). cbn [INR]. lra.
Qed.

Print Assumptions C221_gradient_descent.
Print Assumptions C222_succeeds_iff.
Print Assumptions C222_batches.
Print Assumptions C223_epoch_callback.
Print Assumptions C224_one_object.
Print Assumptions C224_kept_lists_refuted.
Print Assumptions C225_validation_schedule.
Print Assumptions C225_no_influence.
Print Assumptions C226_exceptions.
Print Assumptions C227_mode_refuted.
Print Assumptions C227_empty_loader_raises.
Print Assumptions C228_accuracy.
Print Assumptions C229_default_rate.
Print Assumptions C230_first_rate_refuted.
Print Assumptions C230_single_epoch.
