(** Early stopping, mini-batches and the whole learner for continuous mixtures. *)
From Coq Require Import List Arith ZArith Bool Reals Lia Lra Permutation.
From Verif Require Import Base ScopeModel CircuitModel CircuitEval CircuitMarg LeafModel LeafTop LearnProofs CmsModel CmsSpec CmsProofs CmsTop.
Import ListNotations.
Local Open Scope R_scope.

(** *** early stopping *)
Section Stop.
  Variables (St : Type) (epoch_step : nat -> St -> St) (score : St -> option R) (s0 : St).
  Notation st := (after epoch_step s0).
  Notation sc e := (score (st e)).

  (** epoch [i] beats all earlier ones *)
  Definition record (i : nat) : Prop := exists v, sc i = Some v /\ forall k u, (1 <= k < i)%nat -> sc k = Some u -> u < v.

  Lemma no_record_max j m v : (1 <= j)%nat -> record j -> sc j = Some v -> (forall i, (j < i <= m)%nat -> ~ record i) ->
    forall i u, (1 <= i <= m)%nat -> sc i = Some u -> u <= v.
  Proof.
    intros Hj (v' & Ev & R) Ev' N. assert (v' = v) as -> by congruence. clear Ev'.
    induction i as [i IH] using (well_founded_induction lt_wf). intros u Hi Eu.
    destruct (lt_eq_lt_dec i j) as [[L|E]|G].
    - apply Rlt_le. apply (R i u); [lia|exact Eu].
    - subst i. assert (u = v) as -> by congruence. apply Rle_refl.
    - destruct (Rle_dec u v) as [|NL]; [assumption|]. exfalso. apply (N i); [lia|]. exists u. split; [exact Eu|].
      intros k u' Hk Eu'. assert (u' <= v) by (apply (IH k); [lia|lia|exact Eu']). lra.
  Qed.

  Definition outcome_ok (pat n m j : nat) : Prop :=
    (1 <= j <= m)%nat /\ (m <= n)%nat /\ record j /\ (forall i, (j < i <= m)%nat -> ~ record i) /\
    ((m < n)%nat -> (0 < pat)%nat /\ m = (j + pat)%nat) /\
    ((0 < pat)%nat -> (m <= j + pat)%nat /\ forall a, (1 <= a)%nat -> (a + pat < m)%nat -> exists i, (a < i <= a + pat)%nat /\ record i).

  Lemma train_inv pat k : forall e j v, (1 <= j <= e)%nat -> sc j = Some v -> record j -> (forall i, (j < i <= e)%nat -> ~ record i) ->
    ((0 < pat)%nat -> (e < j + pat)%nat /\ forall a, (1 <= a)%nat -> (a + pat <= e)%nat -> exists i, (a < i <= a + pat)%nat /\ record i) ->
    exists m j', train St epoch_step score true pat k e (st e) (Some (sc j, st j)) (e - j) = st j' /\ outcome_ok pat (e + k) m j'.
  Proof.
    induction k as [|k IH]; intros e j v Hj Ev Rj Nj W.
    - cbn [train]. exists e, j. split; [reflexivity|]. split; [lia|]. split; [lia|]. split; [exact Rj|]. split; [exact Nj|]. split; [intros X; exfalso; lia|].
      intros HP. destruct (W HP) as [W1 W2]. split; [lia|]. intros a Ha Hm. apply W2; [exact Ha|lia].
    - cbn [train]. change (epoch_step e (st e)) with (st (S e)). rewrite Ev. cbv zeta.
      assert (RQ : fgt (sc (S e)) (Some v) = true <-> record (S e)).
      { unfold fgt. split.
        - destruct (sc (S e)) as [u|] eqn:Eu; [|discriminate]. intros H. apply rlt_true in H. exists u. split; [exact Eu|].
          intros i u' Hi Eu'. assert (u' <= v); [|lra]. apply (no_record_max j e v) with (i := i); auto; lia.
        - intros (u & Eu & H). rewrite Eu. apply rlt_true. apply (H j v); [lia|exact Ev]. }
      destruct (fgt (sc (S e)) (Some v)) eqn:EF.
      + assert (record (S e)) as RS by now apply RQ. destruct RS as (u & Eu & RS').
        replace 0%nat with (S e - S e)%nat by lia. replace (e + S k)%nat with (S e + k)%nat by lia.
        apply (IH (S e) (S e) u).
        * lia.
        * exact Eu.
        * exists u. split; [exact Eu|exact RS'].
        * intros i Hi. exfalso. lia.
        * intros HP. split; [lia|]. intros a Ha Hm. destruct (Nat.le_gt_cases (a + pat) e) as [L|G]; [now apply W|].
          exists (S e). split; [lia|]. exists u. split; [exact Eu|exact RS'].
      + assert (NR : ~ record (S e)) by (intros R; apply RQ in R; congruence). clear RQ.
        replace (S (e - j)) with (S e - j)%nat by lia.
        assert (NJ : forall i, (j < i <= S e)%nat -> ~ record i).
        { intros i Hi. destruct (Nat.eq_dec i (S e)) as [->|D]; [exact NR|apply Nj; lia]. }
        destruct (Nat.ltb_spec 0 pat) as [HP|HP]; cbn [andb].
        * destruct (W HP) as [W1 W2]. destruct (Nat.leb_spec pat (S e - j)) as [HL|HL].
          -- exists (S e), j. split; [reflexivity|]. split; [lia|]. split; [lia|]. split; [exact Rj|]. split; [exact NJ|]. split.
             ++ intros _. split; [exact HP|lia].
             ++ intros _. split; [lia|]. intros a Ha Hm. apply W2; [exact Ha|lia].
          -- replace (e + S k)%nat with (S e + k)%nat by lia. rewrite <- Ev. apply (IH (S e) j v).
             ++ lia.
             ++ exact Ev.
             ++ exact Rj.
             ++ exact NJ.
             ++ intros _. split; [lia|]. intros a Ha Hm. destruct (Nat.le_gt_cases (a + pat) e) as [L|G]; [now apply W2|].
                exists j. split; [lia|exact Rj].
        * replace (e + S k)%nat with (S e + k)%nat by lia. rewrite <- Ev. apply (IH (S e) j v).
          ++ lia.
          ++ exact Ev.
          ++ exact Rj.
          ++ exact NJ.
          ++ intros HQ. exfalso. lia.
  Qed.

  (** monitored training: the first score is a number, NaN later on never wins *)
  Lemma train_best pat n v : (1 <= n)%nat -> sc 1%nat = Some v ->
    exists m j, train St epoch_step score true pat n 0 s0 None 0 = st j /\ outcome_ok pat n m j.
  Proof.
    intros Hn Ev. destruct n as [|n]; [lia|]. cbn [train]. cbv zeta. change (epoch_step 0 s0) with (st 1). rewrite Ev.
    destruct (train_inv pat n 1 1 v) as (m & j & E & O).
    - lia.
    - exact Ev.
    - exists v. split; [exact Ev|]. intros k u Hk. lia.
    - intros i Hi. exfalso. lia.
    - intros HP. split; [lia|]. intros a Ha Hm. exfalso. lia.
    - exists m, j. split; [|exact O]. rewrite Ev in E. exact E.
  Qed.

  (** without monitoring the last epoch is kept *)
  Lemma train_plain pat n : forall e bad, train St epoch_step score false pat n e (st e) None bad = st (e + n)%nat.
  Proof.
    induction n as [|n IH]; intros e bad; [cbn [train]; now rewrite Nat.add_0_r|]. cbn [train]. change (epoch_step e (st e)) with (st (S e)).
    rewrite IH. f_equal. lia.
  Qed.

  (** a NaN score in the first epoch is never replaced *)
  Lemma train_nan pat k : forall e bad, train St epoch_step score true pat k e (st e) (Some (None, st 1)) bad = st 1.
  Proof.
    induction k as [|k IH]; intros e bad; [reflexivity|]. cbn [train]. cbv zeta. change (epoch_step e (st e)) with (st (S e)).
    assert (fgt (sc (S e)) None = false) as -> by (unfold fgt; destruct (sc (S e)); reflexivity).
    destruct (_ && _)%bool; [reflexivity|]. apply IH.
  Qed.
End Stop.

(** *** mini-batches *)
Lemma chunks_concat fuel size : (1 <= size)%nat -> forall l, (length l <= fuel)%nat -> concat (chunks fuel size l) = l.
Proof.
  intros HS. induction fuel as [|k IH]; intros l Hl; [destruct l; cbn in *; [reflexivity|lia]|].
  destruct l as [|a l]; [reflexivity|]. cbn [chunks]. set (q := a :: l) in *. cbn [concat].
  rewrite IH; [apply firstn_skipn|]. rewrite skipn_length. change (length q) with (S (length l)) in *. cbn [length] in Hl. lia.
Qed.
Lemma chunks_length fuel size : (1 <= size)%nat -> forall l, (length l <= fuel)%nat ->
  forall b, (b < length (chunks fuel size l))%nat ->
    length (nth b (chunks fuel size l) []) = Nat.min size (length l - b * size) /\ (b * size < length l)%nat.
Proof.
  intros HS. induction fuel as [|k IH]; intros l Hl b Hb; [cbn in Hb; lia|].
  destruct l as [|a l]; [cbn in Hb; lia|]. cbn [chunks] in Hb |- *. set (q := a :: l) in *.
  assert (length q = S (length l)) as LQ by reflexivity.
  destruct b as [|b]; cbn [nth]; [rewrite firstn_length; lia|]. cbn [length] in Hb.
  destruct (IH (skipn size q)) with (b := b) as [E1 E2]; [rewrite skipn_length; lia|lia|]. rewrite E1, skipn_length. rewrite skipn_length in E2. cbn [Nat.mul]. lia.
Qed.
Lemma minibatches_spec n size perm : (1 <= n)%nat -> (1 <= size)%nat -> Permutation perm (seq 0 n) ->
  Permutation (concat (minibatches n size perm)) (seq 0 n) /\
  forall b, (b < length (minibatches n size perm))%nat ->
    length (nth b (minibatches n size perm) []) = Nat.min size (n - b * size) /\ (b * size < n)%nat.
Proof.
  intros Hn HS P. assert (length perm = n) as LP by (rewrite (Permutation_length P); apply seq_length).
  unfold minibatches. destruct (Nat.leb_spec n size) as [L|G].
  - split; [cbn; now rewrite app_nil_r|]. intros b Hb. cbn in Hb. assert (b = 0%nat) as -> by lia. cbn [nth Nat.mul]. rewrite seq_length, Nat.sub_0_r, Nat.min_r by lia. split; [reflexivity|lia].
  - split; [rewrite chunks_concat by lia; exact P|]. intros b Hb. subst n. apply chunks_length; [exact HS|apply le_n|exact Hb].
Qed.

(** *** integration points *)
Lemma bsum_const n (a : R) : bsum n (fun _ => a) = INR n * a.
Proof. induction n as [|n IH]; [cbn; ring|]. rewrite S_INR. cbn [bsum]. rewrite IH. ring. Qed.
Lemma uniform_ok n : (1 <= n)%nat -> INR n <= 10 ^ 30 -> weights_ok n (fun _ => 1 / INR n).
Proof.
  intros Hn HB. assert (0 < INR n) as P by (apply lt_0_INR; lia). split.
  - intros _ _. unfold Rdiv. rewrite Rmult_1_l. now apply Rinv_le_contravar.
  - rewrite bsum_const. field. lra.
Qed.

(** *** the learner *)
Lemma eval_score_mean mode fm F n out w m rows : family_ok fm -> (1 <= F)%nat -> weights_ok n w ->
  compile_factorized mode fm F n out w = Ok m -> rows <> [] -> (forall x f, In x rows -> (f < F)%nat -> admissible fm (x f)) ->
  eval_score fm F n w out rows = Ok (Some (mean_ll m rows)).
Proof.
  intros OK HF W E NE A. unfold eval_score. rewrite component_ll_ok by assumption. cbn [bind]. rewrite map_map. unfold mean, mean_ll.
  assert (EM : map (fun x : row => fin (mixture_ll n w (fun i => bsum F (fun f => cell_ll fm F (out i) f (x f))))) rows
             = map (fun x => fin (loglik m x 0 0 0)) rows).
  { apply map_ext_in. intros x Hx. f_equal. apply pr_inj. change (pr (loglik m x 0 0 0)) with (prob m x 0 0 0).
    rewrite (compiled_density mode fm F n out w m x) by auto. apply mixture_ll_density; auto. }
  destruct rows as [|x rows]; [congruence|]. rewrite <- EM. rewrite map_length. reflexivity.
Qed.

Lemma learn_spec {St} mode (epoch_step : nat -> St -> St) dec fm F ld points bs epochs patience data val s0 m :
  family_ok fm -> INR points <= 10 ^ 30 -> (match val with Some v => v | None => data end) <> [] ->
  learn_factorized mode epoch_step dec fm F ld points bs epochs patience data val s0 = Ok m ->
  let w := fun _ : nat => 1 / INR points in
  let rows := match val with Some v => v | None => data end in
  let model e mi := compile_factorized mode fm F points (dec (after epoch_step s0 e)) w = Ok mi in
  (forall x f, In x data \/ In x rows -> (f < F)%nat -> admissible fm (x f)) /\
  exists M j, model j m /\ (1 <= j <= M)%nat /\ (M <= epochs)%nat /\
    (val <> None \/ (0 < patience)%nat ->
      (forall i mi, (1 <= i <= M)%nat -> model i mi -> mean_ll mi rows <= mean_ll m rows) /\
      (forall i mi, (1 <= i < j)%nat -> model i mi -> mean_ll mi rows < mean_ll m rows) /\
      ((M < epochs)%nat -> (0 < patience)%nat /\ M = (j + patience)%nat)) /\
    (val = None -> patience = 0%nat -> M = epochs /\ j = epochs).
Proof.
  intros OK HB NE E w rows model. unfold learn_factorized in E.
  destruct (Nat.ltb ld 1) eqn:E1; [discriminate|]. destruct (Nat.ltb_spec points 1) as [|HP]; [discriminate|].
  destruct (Nat.ltb_spec epochs 1) as [|HE]; [discriminate|]. destruct (Nat.ltb bs 1) eqn:E4; [discriminate|]. cbn [orb] in E.
  unfold rqmc_weights in E. destruct (Nat.ltb_spec points 1) as [X|_]; [lia|]. rewrite E1 in E. cbn [bind] in E. fold w rows in E.
  destruct (component_ll fm F (dec s0) data) as [l1|] eqn:C1; cbn [bind] in E; [|discriminate].
  destruct (component_ll fm F (dec s0) rows) as [l2|] eqn:C2; cbn [bind] in E; [|discriminate].
  destruct (component_ll_inv _ _ _ _ _ C1) as (_ & A1 & _). destruct (component_ll_inv _ _ _ _ _ C2) as (_ & A2 & _).
  split; [intros x f [H|H] Hf; [now apply A1|now apply A2]|].
  pose proof (uniform_ok points HP HB) as W. fold w in W.
  set (score := fun s => match eval_score fm F points w (dec s) rows with Ok v => v | Err => None end) in *.
  destruct (proj1 (compile_iff mode fm F points _ w) (ex_intro _ m E)) as (_ & HF & NC & WP & WS).
  assert (MD : forall s, exists mi, compile_factorized mode fm F points (dec s) w = Ok mi) by (intros s; apply compile_iff; auto).
  assert (SC : forall s mi, compile_factorized mode fm F points (dec s) w = Ok mi -> score s = Some (mean_ll mi rows)).
  { intros s mi Ei. unfold score. now rewrite (eval_score_mean mode fm F points (dec s) w mi rows OK HF W Ei NE A2). }
  clearbody score. unfold fit in E. set (mon := (match val with Some _ => true | None => false end || Nat.ltb 0 patience)%bool) in *.
  destruct mon eqn:EM.
  - destruct (MD (after epoch_step s0 1)) as (m1 & E1').
    destruct (train_best St epoch_step score s0 patience epochs (mean_ll m1 rows) HE (SC _ _ E1')) as (M & j & ET & (O1 & O2 & Rj & O4 & O5 & O6)).
    rewrite ET in E. exists M, j. split; [exact E|]. split; [exact O1|]. split; [exact O2|]. split.
    + intros _. split; [|split].
      * intros i mi Hi Ei. apply (no_record_max St epoch_step score s0 j M (mean_ll m rows)) with (i := i); [lia|exact Rj|apply SC; exact E|exact O4|exact Hi|apply SC; exact Ei].
      * intros i mi Hi Ei. destruct Rj as (v & Ev & R). rewrite (SC _ _ E) in Ev. injection Ev as Ev. rewrite Ev. apply (R i); [lia|]. apply SC. exact Ei.
      * exact O5.
    + intros -> ->. exfalso. unfold mon in EM. discriminate.
  - change s0 with (after epoch_step s0 0) in E at 1. rewrite train_plain in E. exists epochs, epochs. split; [exact E|]. split; [lia|]. split; [lia|]. split.
    + intros [H|H]; exfalso; unfold mon in EM; apply orb_false_iff in EM; destruct EM as [EM1 EM2].
      * destruct val; [discriminate|congruence].
      * apply Nat.ltb_ge in EM2. lia.
    + intros _ _. auto.
Qed.
