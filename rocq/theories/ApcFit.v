(** Proofs on fit_apc and evaluate_apc. *)
From Coq Require Import List Arith Bool Reals Lra Lia.
From Verif Require Import Base ApcTrainModel ApcTrainSpec.
Import ListNotations.
Local Open Scope R_scope.

Section Fit.
  Variables P B : Type.
  Variable loss : bool -> P -> B -> result metrics.
  Variable update : P -> B -> result P.
  Variable bsize : B -> nat.
  Notation steps := (steps P B loss update).
  Notation fit_from := (fit_from P B loss update bsize).
  Notation fit := (fit P B loss update bsize).
  Notation train_loop := (train_loop P B loss update bsize).
  Notation evaluate := (evaluate P B loss bsize).

  Definition sum_tot (bs : list B) (ms : list metrics) : tot :=
    fold_left (fun t p => tot_add t (snd p) (fst p)) (combine (map bsize bs) ms) tot0.

  Lemma train_loop_steps : forall bs m t m' t', train_loop m bs t = (m', Ok t') ->
    exists ms, steps (params _ m) bs ms (params _ m') /\ (bs <> [] -> training _ m' = true) /\ (bs = [] -> m' = m) /\
      t' = fold_left (fun t p => tot_add t (snd p) (fst p)) (combine (map bsize bs) ms) t.
  Proof.
    induction bs as [|b bs IH]; cbn; intros m t m' t' E.
    - injection E as <- <-. exists []. repeat split; try constructor; congruence.
    - unfold train_step in E. destruct (loss true (params _ m) b) as [x|] eqn:El; [|discriminate].
      destruct (update (params _ m) b) as [p|] eqn:Eu; [|discriminate].
      destruct (IH _ _ _ _ E) as (ms & A & F1 & F2 & F3). exists (x :: ms). cbn [params] in *.
      split; [econstructor; eassumption|]. split; [|split; [discriminate|exact F3]].
      intros _. destruct bs; [rewrite F2; reflexivity|apply F1; discriminate].
  Qed.

  Lemma fold_tot l : forall t, fold_left (fun t (p : nat * metrics) => tot_add t (snd p) (fst p)) l t =
    (mkMetrics (m_rec (fst t) + lsumR (map (fun p => m_rec (snd p) * INR (fst p)) l))
               (m_kld (fst t) + lsumR (map (fun p => m_kld (snd p) * INR (fst p)) l))
               (m_nll (fst t) + lsumR (map (fun p => m_nll (snd p) * INR (fst p)) l))
               (m_total (fst t) + lsumR (map (fun p => m_total (snd p) * INR (fst p)) l)),
     (snd t + fold_right Nat.add O (map fst l))%nat).
  Proof.
    induction l as [|[k x] l IH]; intros [[a b c d] n]; cbn [fold_left map lsumR fold_right fst snd].
    - cbn. rewrite Nat.add_0_r. f_equal. f_equal; ring.
    - rewrite IH. unfold tot_add. cbn [fst snd m_rec m_kld m_nll m_total]. f_equal; [f_equal; ring|lia].
  Qed.

  Lemma combine_map_snd {A C D} (f : C -> D) (l : list A) : forall l', combine l (map f l') = map (fun p => (fst p, f (snd p))) (combine l l').
  Proof. induction l as [|a l IH]; intros [|b l']; cbn; [reflexivity..|]. now rewrite IH. Qed.
  Lemma combine_fst {A C} (l : list A) : forall (l' : list C), length l = length l' -> map fst (combine l l') = l.
  Proof. induction l as [|a l IH]; intros [|b l'] H; cbn in *; [reflexivity|discriminate..|]. f_equal. apply IH. lia. Qed.

  Lemma tot_mean_wmean ns ms x : length ns = length ms ->
    tot_mean (fold_left (fun t (p : nat * metrics) => tot_add t (snd p) (fst p)) (combine ns ms) tot0) = Ok x ->
    x = mean_metrics ns ms /\ (0 < fold_right Nat.add O ns)%nat.
  Proof.
    intros H. rewrite fold_tot. unfold tot_mean. cbn [fst snd tot0 m_rec m_kld m_nll m_total]. rewrite combine_fst by assumption. cbn [Nat.add].
    destruct (Nat.eqb_spec (fold_right Nat.add 0%nat ns) 0) as [E|E]; [discriminate|]. intros Q. injection Q as <-. split; [|lia].
    unfold mean_metrics, wmean. rewrite !combine_map_snd, !map_map. cbn [fst snd].
    f_equal; f_equal; ring.
  Qed.

  Lemma steps_length p bs ms p' : steps p bs ms p' -> length ms = length bs.
  Proof. induction 1; cbn; congruence. Qed.

  (** the epochs of a successful fit *)
  Lemma fit_from_ok train val : forall n k m m' rows, fit_from k n train val m = (m', Ok rows) ->
    exists ps : nat -> P, ps O = params _ m /\ ps n = params _ m' /\ length rows = n /\
      forall i, (i < n)%nat -> exists ms r, nth_error rows i = Some r /\
        steps (ps i) (train (k + i)%nat) ms (ps (S i)) /\
        h_epoch r = S (k + i) /\ h_train r = mean_metrics (map bsize (train (k + i)%nat)) ms /\
        (0 < fold_right Nat.add O (map bsize (train (k + i)%nat)))%nat /\
        match val with
        | None => h_val r = None
        | Some v => exists x, h_val r = Some x /\ forall fl, snd (evaluate (mkApc _ fl (ps (S i))) (v (k + i)%nat)) = Ok x
        end.
  Proof.
    induction n as [|n IH]; cbn; intros k m m' rows E.
    - injection E as <- <-. exists (fun _ => params _ m). repeat split. intros; lia.
    - destruct (train_loop m (train k) tot0) as [m1 [t|]] eqn:E1; [|discriminate].
      destruct (tot_mean t) as [tm|] eqn:E2; [|discriminate].
      destruct (train_loop_steps _ _ _ _ _ E1) as (ms & A & _ & _ & ->).
      apply tot_mean_wmean in E2 as [E2 E2p]; [|rewrite map_length; symmetry; eapply steps_length; exact A].
      destruct (match val with None => _ | Some _ => _ end) as [m2 [vm|]] eqn:E3; [|discriminate].
      destruct (fit_from (S k) n train val m2) as [m3 [rows'|]] eqn:E4; [|discriminate]. injection E as <- <-.
      assert (params _ m2 = params _ m1 /\ match val with None => vm = None
        | Some v => exists x, vm = Some x /\ forall fl, snd (evaluate (mkApc _ fl (params _ m1)) (v k)) = Ok x end) as [Ep Ev].
      { destruct val as [v|].
        - destruct (evaluate m1 (v k)) as [m4 [x|]] eqn:E5; [|discriminate]. injection E3 as <- <-.
          unfold evaluate in E5. destruct (eval_loop P B loss bsize (params _ m1) (v k) tot0) as [tt|] eqn:E6; [|discriminate].
          injection E5 as <- E5. split; [reflexivity|]. exists x. split; [reflexivity|]. intros fl. unfold ApcTrainModel.evaluate.
          cbn [params]. rewrite E6. exact E5.
        - injection E3 as <- <-. split; reflexivity. }
      destruct (IH _ _ _ _ E4) as (ps & P0 & Pn & L & H).
      exists (fun i => match i with O => params _ m | S j => ps j end). split; [reflexivity|]. split; [exact Pn|]. split; [cbn; congruence|].
      intros [|i] Hi.
      + exists ms, (mkRow (S k) tm vm). rewrite Nat.add_0_r. split; [reflexivity|]. rewrite P0, Ep. cbn [h_epoch h_train h_val].
        repeat (split; [assumption || reflexivity|]). exact Ev.
      + destruct (H i ltac:(lia)) as (ms' & r & H1). exists ms', r. replace (k + S i)%nat with (S k + i)%nat by lia. exact H1.
  Qed.

  (** a fit cannot fail when every epoch has samples and no call raises *)
  Definition never_raises : Prop := (forall fl p b, loss fl p b <> Err) /\ (forall p b, update p b <> Err).
  Lemma train_loop_total : never_raises -> forall bs m t, exists m' t', train_loop m bs t = (m', Ok t') /\
    snd t' = (snd t + fold_right Nat.add O (map bsize bs))%nat.
  Proof.
    intros [NL NU]. induction bs as [|b bs IH]; cbn; intros m t; [exists m, t; split; [reflexivity|lia]|].
    unfold train_step. destruct (loss true (params _ m) b) as [x|] eqn:El; [|destruct (NL _ _ _ El)].
    destruct (update (params _ m) b) as [p|] eqn:Eu; [|destruct (NU _ _ Eu)].
    destruct (IH (mkApc _ true p) (tot_add t x (bsize b))) as (m' & t' & A & E). exists m', t'. split; [exact A|]. rewrite E. cbn. lia.
  Qed.
  Lemma eval_loop_total : never_raises -> forall bs p t, exists t', eval_loop P B loss bsize p bs t = Ok t' /\
    snd t' = (snd t + fold_right Nat.add O (map bsize bs))%nat.
  Proof.
    intros [NL NU]. induction bs as [|b bs IH]; cbn; intros p t; [exists t; split; [reflexivity|lia]|].
    destruct (loss false p b) as [x|] eqn:El; [|destruct (NL _ _ _ El)].
    destruct (IH p (tot_add t x (bsize b))) as (t' & A & E). exists t'. split; [exact A|]. rewrite E. cbn. lia.
  Qed.

  Definition has_samples (bs : list B) : Prop := (0 < fold_right Nat.add O (map bsize bs))%nat.
  Lemma tot_mean_total t : (0 < snd t)%nat -> exists x, tot_mean t = Ok x.
  Proof. intros H. unfold tot_mean. destruct (Nat.eqb_spec (snd t) 0); [lia|]. eexists. reflexivity. Qed.

  Lemma fit_from_total train val : never_raises -> forall n k, (forall i, (k <= i < k + n)%nat -> has_samples (train i)) ->
    (forall v i, val = Some v -> (k <= i < k + n)%nat -> has_samples (v i)) ->
    forall m, exists rows m', fit_from k n train val m = (m', Ok rows).
  Proof.
    intros NR. induction n as [|n IH]; cbn; intros k Ht Hv m; [eexists; eexists; reflexivity|].
    destruct (train_loop_total NR (train k) m tot0) as (m1 & t & -> & Et).
    destruct (tot_mean_total t) as [tm ->]. { rewrite Et. cbn. apply Ht. lia. }
    match goal with |- context [match ?X with (_, _) => _ end] => assert (exists m2 vm, X = (m2, Ok vm)) as (m2 & vm & ->) end.
    { destruct val as [v|]; [|eexists; eexists; reflexivity]. unfold ApcTrainModel.evaluate.
      destruct (eval_loop_total NR (v k) (params _ m1) tot0) as (t' & -> & Et').
      destruct (tot_mean_total t') as [x ->]. { rewrite Et'. cbn. apply (Hv v k eq_refl). lia. }
      eexists; eexists; reflexivity. }
    destruct (IH (S k)) with (m := m2) as (rows & m' & ->); [intros; apply Ht; lia|intros v i Hv' Hi; apply (Hv v i Hv'); lia|].
    eexists; eexists; reflexivity.
  Qed.

  (** a pass over no batches: "Cannot fit APC on empty training data" *)
  Lemma fit_from_empty train val m k n : train k = [] -> snd (fit_from k (S n) train val m) = Err.
  Proof. intros E. cbn. rewrite E. cbn. reflexivity. Qed.

  Lemma fit_generator l val m n : (2 <= n)%nat -> snd (fit n (generator B l) val m) = Err.
  Proof.
    intros Hn. destruct n as [|[|n]]; try lia. unfold ApcTrainModel.fit. cbn [ApcTrainModel.fit_from].
    destruct (train_loop m (generator B l 0%nat) tot0) as [m1 [t|]]; [|reflexivity].
    destruct (tot_mean t); [|reflexivity].
    destruct (match val with None => _ | Some _ => _ end) as [m2 [vm|]]; [|reflexivity].
    reflexivity.
  Qed.
  Lemma fit_val_generator train l m n : (2 <= n)%nat -> snd (fit n train (Some (generator B l)) m) = Err.
  Proof.
    intros Hn. destruct (fit n train (Some (generator B l)) m) as [m' [rows|]] eqn:E; [|reflexivity]. exfalso.
    destruct (fit_from_ok _ _ _ _ _ _ _ E) as (ps & _ & _ & _ & H). destruct (H 1%nat ltac:(lia)) as (ms & r & _ & _ & _ & _ & _ & x & _ & X).
    specialize (X true). cbn in X. discriminate.
  Qed.

  (** evaluation leaves the model as it was, unless a batch raises *)
  Lemma evaluate_keeps m bs : (forall b, In b bs -> loss false (params _ m) b <> Err) -> fst (evaluate m bs) = m.
  Proof.
    intros H. unfold ApcTrainModel.evaluate.
    assert (forall t, exists t', eval_loop P B loss bsize (params _ m) bs t = Ok t') as T.
    { induction bs as [|b bs IH]; cbn; intros t; [eexists; reflexivity|].
      destruct (loss false (params _ m) b) eqn:E; [|destruct (H b (or_introl eq_refl) E)]. apply IH. intros; apply H; now right. }
    destruct (T tot0) as [t ->]. destruct m; reflexivity.
  Qed.
  Lemma evaluate_params m bs : params _ (fst (evaluate m bs)) = params _ m.
  Proof. unfold ApcTrainModel.evaluate. destruct (eval_loop _ _ _ _ _ _ _); reflexivity. Qed.
  Lemma evaluate_raise m bs b : In b bs -> loss false (params _ m) b = Err ->
    evaluate m bs = (mkApc _ false (params _ m), Err).
  Proof.
    intros Hb E. unfold ApcTrainModel.evaluate.
    assert (forall t, eval_loop P B loss bsize (params _ m) bs t = Err) as T.
    { induction bs as [|a bs IH]; cbn; intros t; [destruct Hb|]. destruct Hb as [->|Hb]; [now rewrite E|].
      destruct (loss false (params _ m) a); [now apply IH|reflexivity]. }
    now rewrite T.
  Qed.
End Fit.
