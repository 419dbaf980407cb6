(** Sampling through one layer of a stack. *)
From Coq Require Import List Arith Bool Reals Lia Lra FunctionalExtensionality.
From Verif Require Import Base ScopeModel ScopeProofs CircuitModel CircuitSpec CircuitBasics CircuitEval Integral CircuitMarg CircuitProps
  SampleModel SampleSpec SampleExp SampleProofs EmModel SplitModel SplitProofs LayerModel LayerSpec LayerProofs FactorModel FactorProofs FactorTop
  StackModel StackSpec StackProofs StackDist StackTop StackRat StackPostModel StackSampleModel.
Import ListNotations.
Local Open Scope R_scope.

(** a context that selects, for every feature, one channel in range *)
Definition good (s : shape) (t : ctx) : Prop :=
  length (c_ci t) = features s /\ c_mask t = repeat true (features s) /\ (c_rep t < repetitions s)%nat /\
  forall f, (f < features s)%nat -> (nth f (c_ci t) 0 < channels s)%nat.
(** the probability of the selection *)
Definition Wt (F : nat) (P : nat -> nat -> nat -> R) (t : ctx) : R := bprod F (fun f => P f (nth f (c_ci t) 0%nat) (c_rep t)).
Definition cached (ev : option nt) (s : shape) (P1 : nat -> nat -> nat -> R) : Prop :=
  match ev with None => forall f c r, in_shape s f c r -> P1 f c r = 1 | Some t => holds t s P1 end.
Lemma cached_pos ev s P1 f c r : cached ev s P1 -> in_shape s f c r -> 0 < P1 f c r.
Proof. destruct ev; cbn [cached]; intros H I; [exact (holds_pos _ _ _ _ _ _ H I)|rewrite (H _ _ _ I); lra]. Qed.

Lemma of_result_ok {A} (x : result A) a : x = Ok a -> of_result x = Ret a.
Proof. now intros ->. Qed.
Lemma validate_good ws nch nr t s : good s t -> In (features s) ws -> channels s = nch -> (c_rep t < nr)%nat -> (0 < nch)%nat ->
  validate ws nch nr t = true.
Proof.
  intros (L & M & Hr & Hc) Hw Ec Hn Hp. unfold validate. rewrite L, M, repeat_length, Nat.eqb_refl.
  assert (existsb (Nat.eqb (features s)) ws = true) as ->.
  { apply existsb_exists. exists (features s). split; [exact Hw|apply Nat.eqb_refl]. }
  destruct t as [ci mk r]. cbn [c_ci c_mask c_rep] in *. rewrite active_below_full by (rewrite L, <- Ec; exact Hc).
  destruct nch; [lia|]. destruct nr; [lia|]. cbn [andb Nat.leb]. now apply Nat.ltb_lt.
Qed.
Lemma enter_good s nch nr t w n : good s t -> features s = w -> w = n -> channels s = nch -> (c_rep t < nr)%nat -> (0 < nch)%nat ->
  enter w nch nr n t = Ok t.
Proof.
  intros G E1 E2 E3 Hr Hp. unfold enter. rewrite (validate_good _ nch nr t s G); auto.
  - apply bcast_full. rewrite (proj1 G). congruence.
  - right. left. now symmetry.
Qed.
Lemma split_enter_good k n l t : good (l_in l) t -> (0 < channels (l_in l))%nat -> split_enter k n l t = Ok t.
Proof.
  intros G Hp. unfold split_enter. cbv zeta. rewrite (validate_good _ _ _ t _ G); auto.
  2:{ right. now left. } 2:{ exact (proj1 (proj2 (proj2 G))). }
  pose proof (proj1 G) as L.
  assert (E : (if (Nat.eqb (length (c_ci t)) 1 && Nat.ltb 1 (features (l_in l)))%bool then broadcast (features (l_in l)) t else Ok t) = Ok t).
  { destruct (_ && _)%bool; [now apply bcast_full|reflexivity]. }
  rewrite E. cbn [bind]. now rewrite L, Nat.eqb_refl.
Qed.

(** *** the picks of all features *)
Lemma picks_expects {A} D n (pick : nat -> nat -> prog A) (g : nat -> A) (w : nat -> nat -> R) (phi : nat -> A -> R) d :
  forall ci f0 K, (forall j, (j < length ci)%nat -> forall h, expects D (pick (f0 + j)%nat (nth j ci 0%nat)) h (bsum n (fun i => w (f0 + j)%nat i * h (g i)))) ->
  expects D (picks pick f0 ci) (fun l => K * bprod (length ci) (fun j => phi (f0 + j)%nat (nth j l d)))
    (K * bprod (length ci) (fun j => bsum n (fun i => w (f0 + j)%nat i * phi (f0 + j)%nat (g i)))).
Proof.
  induction ci as [|c ci IH]; intros f0 K Hp.
  - cbn. reflexivity.
  - cbn [picks length].
    pose proof (Hp 0%nat ltac:(cbn; lia)) as H0. rewrite Nat.add_0_r in H0. cbn [nth] in H0.
    set (V := bprod (length ci) (fun j => bsum n (fun i => w (S f0 + j)%nat i * phi (S f0 + j)%nat (g i)))).
    assert (E : K * bprod (S (length ci)) (fun j => bsum n (fun i => w (f0 + j)%nat i * phi (f0 + j)%nat (g i))) =
                bsum n (fun i => w f0 i * ((fun a => K * phi f0 a * V) (g i)))).
    { rewrite bprod_S_first, Nat.add_0_r.
      replace (bprod (length ci) (fun i => bsum n (fun i0 => w (f0 + S i)%nat i0 * phi (f0 + S i)%nat (g i0)))) with V
        by (apply bprod_ext; intros j _; now rewrite Nat.add_succ_r).
      rewrite <- Rmult_assoc, <- bsum_scal, <- bsum_scal_r. apply bsum_ext. intros i _. ring. }
    rewrite E. eapply expects_bind; [exact (H0 (fun a => K * phi f0 a * V))|]. intros a _. cbn beta.
    eapply expects_bind.
    + apply (IH (S f0) (K * phi f0 a)). intros j Hj h. specialize (Hp (S j) ltac:(cbn; lia) h).
      cbn [nth] in Hp. now rewrite Nat.add_succ_r in Hp.
    + intros l _. cbn [expects]. rewrite bprod_S_first. cbn [nth]. rewrite Nat.add_0_r.
      rewrite Rmult_assoc. do 2 f_equal. apply bprod_ext. intros j _. now rewrite Nat.add_succ_r.
Qed.
Lemma picks_outcome {A} (pick : nat -> nat -> prog A) (ok : A -> Prop) d :
  forall ci f0 l, (forall j a, (j < length ci)%nat -> outcome (pick (f0 + j)%nat (nth j ci 0%nat)) a -> ok a) ->
  outcome (picks pick f0 ci) l -> length l = length ci /\ forall j, (j < length ci)%nat -> ok (nth j l d).
Proof.
  induction ci as [|c ci IH]; intros f0 l Hp H; cbn [picks] in H.
  - inversion H; subst. split; [reflexivity|]. cbn. intros j Hj. lia.
  - apply outcome_bind in H. destruct H as (a & Ha & H). apply outcome_bind in H. destruct H as (l' & Hl & H). inversion H; subst.
    destruct (IH (S f0) l') as [L K].
    { intros j b Hj Hb. apply (Hp (S j) b); [cbn; lia|]. now rewrite Nat.add_succ_r. }
    { exact Hl. }
    split; [cbn; lia|]. intros j Hj. destruct j as [|j]; cbn [nth].
    + apply (Hp 0%nat a); [cbn; lia|]. now rewrite Nat.add_0_r.
    + apply K. cbn in Hj. lia.
Qed.
Lemma logits_outcome n g i : outcome (sample_logits false n g) i -> (i < n)%nat.
Proof.
  unfold sample_logits. destruct (Rlt_dec _ _) as [Z|Z]; intros H.
  - inversion H as [|n1 w1 k1 i1 b1 Hi Hw Hk|]; subst. inversion Hk; subst. exact Hi.
  - inversion H.
Qed.
Lemma pick_one D n q P1 h : (0 < n)%nat -> (forall i, (i < n)%nat -> P1 i = 1) ->
  expects D (sample_logits false n (fun i => Fin (q i))) h
    (bsum n (fun i => softmax n q i * P1 i / bsum n (fun j => softmax n q j * P1 j) * h i)).
Proof.
  intros Hn H. replace (bsum n (fun j => softmax n q j * P1 j)) with 1.
  - erewrite bsum_ext; [apply (pick_prior D n q h Hn)|]. intros i Hi. cbn beta. rewrite (H i Hi). field.
  - rewrite <- (softmax_sum n q Hn). apply bsum_ext. intros j Hj. rewrite (H j Hj). ring.
Qed.
Lemma pick_ev D n q p P1 h : (0 < n)%nat -> (forall i, (i < n)%nat -> pr (p i) = P1 i /\ 0 < P1 i) ->
  expects D (sample_logits false n (fun i => ladd (Fin (q i)) (p i))) h
    (bsum n (fun i => softmax n q i * P1 i / bsum n (fun j => softmax n q j * P1 j) * h i)).
Proof.
  intros Hn H.
  assert (E : bsum n (fun j => softmax n q j * P1 j) = bsum n (fun j => softmax n q j * pr (p j))).
  { apply bsum_ext. intros j Hj. now rewrite (proj1 (H j Hj)). }
  assert (Z : 0 < bsum n (fun j => softmax n q j * pr (p j))).
  { apply bsum_softmax_pos; [exact Hn|]. intros i Hi. rewrite (proj1 (H i Hi)). apply H, Hi. }
  rewrite E. erewrite bsum_ext; [apply (pick_post D n q p h Hn); lra|]. intros i Hi. cbn beta. now rewrite (proj1 (H i Hi)).
Qed.

(** *** products over pairs of features *)
Lemma bprod_halves k w g : k <> ByIndex -> bprod (w * 2) g = bprod w (fun f => g (in_feature k w 2 f 0) * g (in_feature k w 2 f 1)).
Proof.
  intros Hk. destruct k; [| |contradiction]; cbn [in_feature].
  - replace (w * 2)%nat with (w + w)%nat by lia. rewrite bprod_app, bprod_mult. f_equal; apply bprod_ext; intros i _; f_equal; lia.
  - induction w as [|w IH]; [reflexivity|]. replace (S w * 2)%nat with (S (S (w * 2))) by lia. cbn [bprod]. rewrite IH.
    replace (w * 2 + 0)%nat with (w * 2)%nat by lia. replace (w * 2 + 1)%nat with (S (w * 2)) by lia. ring.
Qed.

(** *** what sampling through a layer does *)
Definition ratio (F : nat) (Ph P1 : nat -> nat -> nat -> R) (t : ctx) : R := Wt F Ph t / Wt F P1 t.
Definition steps (D : nat -> domain) (l : layer) (ev : option nt) (s : shape) (P1 : nat -> nat -> nat -> R) : Prop :=
  forall t, good (l_out l) t ->
    (forall t', outcome (layer_route false l ev t) t' -> good s t') /\
    forall Ph, expects D (layer_route false l ev t) (ratio (features s) Ph P1)
      (ratio (features (l_out l)) (sem (l_op l) s Ph) (sem (l_op l) s P1) t).

Lemma ratio_prod F Ph P1 t : (forall f, (f < F)%nat -> P1 f (nth f (c_ci t) 0%nat) (c_rep t) <> 0) ->
  ratio F Ph P1 t = bprod F (fun f => Ph f (nth f (c_ci t) 0%nat) (c_rep t) / P1 f (nth f (c_ci t) 0%nat) (c_rep t)).
Proof. intros H. unfold ratio, Wt. now rewrite <- bprod_div. Qed.
Lemma good_in s t f : good s t -> (f < features s)%nat -> in_shape s f (nth f (c_ci t) 0%nat) (c_rep t).
Proof. intros (L & M & Hr & Hc) Hf. split; [exact Hf|]. split; [now apply Hc|exact Hr]. Qed.
Lemma ratio_good s ev Ph P1 t : cached ev s P1 -> good s t ->
  ratio (features s) Ph P1 t = bprod (features s) (fun f => Ph f (nth f (c_ci t) 0%nat) (c_rep t) / P1 f (nth f (c_ci t) 0%nat) (c_rep t)).
Proof.
  intros Hc G. apply ratio_prod. intros f Hf. apply Rgt_not_eq. exact (cached_pos _ _ _ _ _ _ Hc (good_in _ _ _ G Hf)).
Qed.

Lemma step_sum D ev s P1 co nr lg so : decl (OSum co nr lg) s = Ok so -> fits (OSum co nr lg) s so -> cached ev s P1 ->
  steps D (mkLay (OSum co nr lg) s so) ev s P1.
Proof.
  intros Ed (HC & HR & Enr) Hev t G. cbn [decl] in Ed. destruct (Nat.ltb_spec co 1) as [|Hco]; [discriminate|].
  injection Ed as <-. cbn [l_out l_op features layer_route l_in sem] in *. subst nr.
  set (F := features s) in *. set (C := channels s) in *. set (Rr := repetitions s) in *.
  destruct (G) as (L & M & Hr & Hc). cbn [features channels repetitions] in L, M, Hr, Hc.
  assert (Ee : enter F co Rr F t = Ok t) by (apply (enter_good (mkShape F co Rr)); auto).
  rewrite Ee. cbn [of_result pbind].
  set (r := c_rep t) in *. set (ci := c_ci t) in *.
  set (w := fun f i => softmax C (fun j => lg f j (nth f ci 0%nat) r) i * P1 f i r / bsum C (fun q => softmax C (fun j => lg f j (nth f ci 0%nat) r) q * P1 f q r)).
  assert (IN : forall f i, (f < F)%nat -> (i < C)%nat -> in_shape s f i r) by (intros f i A B; repeat split; assumption).
  assert (Hp : forall f, (f < F)%nat -> forall h, expects D (osum_pick false C co Rr lg ev r f (nth f ci 0%nat)) h (bsum C (fun i => w f i * h i))).
  { intros f Hf h. unfold osum_pick. rewrite (proj2 (Nat.ltb_lt _ _) (Hc f Hf)), (proj2 (Nat.ltb_lt _ _) Hr). cbn [andb].
    destruct ev as [e|]; cbn [cached] in Hev.
    - rewrite (proj1 Hev). fold Rr. rewrite (proj2 (Nat.ltb_lt _ _) Hr). unfold pick_logits. rewrite anyb_false.
      2:{ intros i Hi. exact (holds_nan _ _ _ _ _ _ Hev (IN f i Hf Hi)). }
      apply (pick_ev D C (fun i => lg f i (nth f ci 0%nat) r) _ (fun i => P1 f i r)); [exact HC|].
      intros i Hi. split; [exact (holds_pr _ _ _ _ _ _ Hev (IN f i Hf Hi))|exact (holds_pos _ _ _ _ _ _ Hev (IN f i Hf Hi))].
    - apply (pick_one D C (fun i => lg f i (nth f ci 0%nat) r) (fun i => P1 f i r)); [exact HC|]. intros i Hi. apply Hev. now apply IN. }
  assert (Ho : forall f i, (f < F)%nat -> outcome (osum_pick false C co Rr lg ev r f (nth f ci 0%nat)) i -> (i < C)%nat).
  { intros f i Hf H. unfold osum_pick in H. destruct (_ && _)%bool; [|inversion H]. destruct ev as [e|].
    - destruct (Nat.ltb _ _); [|inversion H]. unfold pick_logits in H. destruct (anyb _ _); [inversion H|]. now apply logits_outcome in H.
    - now apply logits_outcome in H. }
  assert (Gt : forall t', outcome (pbind (picks (osum_pick false C co Rr lg ev r) 0 ci) (fun ns => Ret (mkCtx ns (c_mask t) r))) t' -> good s t').
  { intros t' H. apply outcome_bind in H. destruct H as (ns & Hn & H). inversion H; subst.
    destruct (picks_outcome (osum_pick false C co Rr lg ev r) (fun i => (i < C)%nat) 0%nat ci 0 ns) as [Ln Kn]; [|exact Hn|].
    { intros j a Hj Ha. apply (Ho j a); [rewrite L in Hj; exact Hj|exact Ha]. }
    repeat split; cbn [c_ci c_mask c_rep]; [rewrite Ln; exact L|exact M|exact Hr|].
    intros f Hf. apply Kn. rewrite L. exact Hf. }
  split; [exact Gt|]. intros Ph.
  assert (Hpos : forall f, (f < F)%nat -> 0 < bsum C (fun q => softmax C (fun j => lg f j (nth f ci 0%nat) r) q * P1 f q r)).
  { intros f Hf. apply bsum_softmax_pos; [exact HC|]. intros i Hi. exact (cached_pos _ _ _ _ _ _ Hev (IN f i Hf Hi)). }
  set (phi := fun f i => Ph f i r / P1 f i r).
  assert (EV : ratio F (sem (OSum co Rr lg) s Ph) (sem (OSum co Rr lg) s P1) t
               = 1 * bprod (length ci) (fun f => bsum C (fun i => w (0 + f)%nat i * phi (0 + f)%nat i))).
  { rewrite ratio_prod by (intros f Hf; apply Rgt_not_eq, Hpos, Hf). rewrite L, Rmult_1_l. apply bprod_ext. intros f Hf. cbn [Nat.add sem]. fold r ci C.
    unfold Rdiv at 1. rewrite <- bsum_scal_r. apply bsum_ext. intros i Hi. unfold w, phi.
    pose proof (Hpos f Hf) as Z. pose proof (cached_pos _ _ _ _ _ _ Hev (IN f i Hf Hi)) as Z'. field. split; lra. }
  rewrite EV. eapply expects_bind.
  - apply (picks_expects D C _ (fun i => i) w phi 0%nat ci 0 1). intros j Hj h. apply Hp. rewrite L in Hj. exact Hj.
  - intros ns Hns. cbn [expects].
    assert (G' : good s (mkCtx ns (c_mask t) r)).
    { apply Gt. clear - Hns. revert Hns. generalize (picks (osum_pick false C co Rr lg ev r) 0 ci). intros p H.
      induction H; cbn [pbind]; [constructor|econstructor; eauto|econstructor; eauto]. }
    rewrite (ratio_good s ev) by assumption. cbn [c_ci c_rep]. rewrite L, Rmult_1_l. apply bprod_ext. intros f Hf. reflexivity.
Qed.

Lemma step_mix D ev s P1 co nr lg so : decl (OMix co nr lg) s = Ok so -> fits (OMix co nr lg) s so -> cached ev s P1 ->
  features s = 1%nat -> (channels s = 1%nat \/ repetitions s = 1%nat) ->
  steps D (mkLay (OMix co nr lg) s so) ev s P1.
Proof.
  intros Ed (HC & HR & Enr & Eco) Hev F1 Hor t G. cbn [decl] in Ed. destruct (Nat.ltb co 1); [discriminate|]. destruct (negb _); [discriminate|].
  injection Ed as <-. cbn [l_out l_op features layer_route l_in sem] in *. subst nr co. rewrite F1 in *. cbn [Nat.eqb negb].
  set (C := channels s) in *. set (Rr := repetitions s) in *.
  destruct (G) as (L & M & Hr & Hc). cbn [features channels repetitions] in L, M, Hr, Hc.
  assert (Ee : enter 1 C Rr 1 t = Ok t) by (apply (enter_good (mkShape 1 C Rr)); auto).
  rewrite Ee. cbn [of_result pbind].
  specialize (Hc 0%nat ltac:(lia)). set (c := nth 0 (c_ci t) 0%nat) in *.
  assert (IN : forall i r, (i < C)%nat -> (r < Rr)%nat -> in_shape s 0 i r) by (intros i r A B; repeat split; [lia|exact A|exact B]).
  assert (Hpos : 0 < bsum Rr (fun q => softmax Rr (lg 0%nat c) q * P1 0%nat c q)).
  { apply bsum_softmax_pos; [exact HR|]. intros i Hi. exact (cached_pos _ _ _ _ _ _ Hev (IN c i Hc Hi)). }
  set (w := fun q => softmax Rr (lg 0%nat c) q * P1 0%nat c q / bsum Rr (fun q => softmax Rr (lg 0%nat c) q * P1 0%nat c q)).
  assert (Hp : forall h, expects D (omix_pick false C Rr lg ev) h (bsum Rr (fun q => w q * h q))).
  { intros h. destruct Hor as [E1|E1].
    - assert (c = 0)%nat as Ec by (unfold C in Hc; lia). unfold omix_pick.
      assert (EC : C = 1%nat) by (exact E1). destruct ev as [e|]; cbn [cached] in Hev.
      + rewrite anyb_false.
        2:{ intros i Hi. apply anyb_false. intros q Hq. exact (holds_nan _ _ _ _ _ _ Hev (IN i q Hi Hq)). }
        rewrite EC. destruct (c25_pick D Rr lg (t_ll (n_t e)) h HR) as [_ K].
        assert (EZ : pr (repmix_ll Rr lg (t_ll (n_t e)) 0 0) = bsum Rr (fun q => softmax Rr (lg 0%nat c) q * P1 0%nat c q)).
        { rewrite c25_ll by exact HR. apply bsum_ext. intros q Hq. rewrite Ec. rewrite (holds_pr _ _ _ _ _ _ Hev); [reflexivity|]. apply IN; [lia|exact Hq]. }
        rewrite EZ in K. erewrite bsum_ext; [apply K; lra|]. intros q Hq. cbn beta. unfold w. rewrite Ec.
        rewrite (holds_pr _ _ _ _ _ _ Hev) by (apply IN; [lia|exact Hq]). reflexivity.
      + rewrite EC. destruct (c25_pick D Rr lg (fun _ _ _ => NInf) h HR) as [K _].
        erewrite bsum_ext; [apply K|]. intros q Hq. cbn beta. unfold w. rewrite Ec.
        assert (E2 : bsum Rr (fun q0 => softmax Rr (lg 0%nat 0%nat) q0 * P1 0%nat 0%nat q0) = 1).
        { rewrite <- (softmax_sum Rr (lg 0%nat 0%nat) HR). apply bsum_ext. intros j Hj. rewrite Hev by (apply IN; [lia|exact Hj]). ring. }
        rewrite E2, Hev by (apply IN; [lia|exact Hq]). field.
    - assert (ER : Rr = 1%nat) by exact E1.
      assert (EW : bsum Rr (fun q => w q * h q) = h 0%nat).
      { unfold w. rewrite ER. cbn [bsum]. rewrite softmax_one. pose proof (cached_pos _ _ _ _ _ _ Hev (IN c 0%nat Hc ltac:(lia))). field. lra. }
      rewrite EW.
      assert (K : forall g (v : R), g 0%nat = Fin v -> expects D (sample_logits false 1 g) h (h 0%nat)).
      { intros g v Eg. unfold sample_logits. destruct (Rlt_dec _ _) as [Z|Z].
        - cbn [expects]. exists h. split; [intros i Hi _; reflexivity|]. cbn [bsum pr]. rewrite Eg. cbn [pr]. field. apply Rgt_not_eq, exp_pos.
        - exfalso. apply Z. cbn [bsum pr]. rewrite Eg. cbn [pr]. pose proof (exp_pos v). lra. }
      unfold omix_pick, repmix_pick. destruct ev as [e|]; cbn [cached] in Hev.
      + rewrite anyb_false.
        2:{ intros i Hi. apply anyb_false. intros q Hq. exact (holds_nan _ _ _ _ _ _ Hev (IN i q Hi Hq)). }
        rewrite ER.
        assert (EL : forall ev', (forall c0, (c0 < C)%nat -> exists v, repmix_logit 1 lg ev' c0 0 = Fin v) ->
           expects D (sample_logits false 1 (fun r => ladds C (fun c0 => repmix_logit 1 lg ev' c0 r))) h (h 0%nat)).
        { intros ev' Hv.
          assert (EF : exists v, ladds C (fun c0 => repmix_logit 1 lg ev' c0 0) = Fin v).
          { clear - Hv. induction C as [|n IH]; [exists 0; reflexivity|]. cbn [ladds]. destruct IH as (v & ->); [intros; apply Hv; lia|].
            destruct (Hv n ltac:(lia)) as (u & ->). exists (v + u). reflexivity. }
          destruct EF as (v & EF). now apply (K _ v). }
        apply EL. intros c0 Hc0. unfold repmix_logit.
        assert (EFe : exists v, t_ll (n_t e) 0%nat c0 0%nat = Fin v).
        { destruct Hev as (_ & Hv). destruct (Hv _ _ _ (IN c0 0%nat Hc0 ltac:(lia))) as (_ & Z & ->). rewrite lfrom_Fin by exact Z. eauto. }
        destruct EFe as (v & Ev).
        destruct (lse 1 (fun q : nat => ladd (Fin (lg 0%nat c0 q)) (t_ll (n_t e) 0%nat c0 q))) eqn:El; [|rewrite Ev; cbn [ladd lsub]; eauto].
        exfalso. assert (Z : pr NInf = exp (lg 0%nat c0 0%nat) * pr (t_ll (n_t e) 0%nat c0 0%nat)) by (rewrite <- El, pr_lse; cbn [bsum]; rewrite pr_ladd; cbn [pr]; ring).
        rewrite (holds_pr _ _ _ _ _ _ Hev (IN c0 0%nat Hc0 ltac:(lia))) in Z. cbn [pr] in Z.
        pose proof (holds_pos _ _ _ _ _ _ Hev (IN c0 0%nat Hc0 ltac:(lia))). pose proof (exp_pos (lg 0%nat c0 0%nat)).
        assert (0 < exp (lg 0%nat c0 0%nat) * P1 0%nat c0 0%nat) by now apply Rmult_lt_0_compat. lra.
      + rewrite ER.
        assert (EF : exists v, ladds C (fun c0 => repmix_logit 1 lg None c0 0) = Fin v).
        { clear. induction C as [|n IH]; [exists 0; reflexivity|]. cbn [ladds]. destruct IH as (v & ->). exists (v + lg 0%nat n 0%nat). reflexivity. }
        destruct EF as (v & EF). now apply (K _ v). }
  assert (Ho : forall q, outcome (omix_pick false C Rr lg ev) q -> (q < Rr)%nat).
  { intros q H. unfold omix_pick in H. destruct ev as [e|]; [destruct (anyb _ _); [inversion H|]|]; unfold repmix_pick in H; now apply logits_outcome in H. }
  assert (Gt : forall q, (q < Rr)%nat -> good s (mkCtx (c_ci t) (c_mask t) q)).
  { intros q Hq. repeat split; cbn [c_ci c_mask c_rep]; rewrite ?F1; auto. intros f Hf. assert (f = 0)%nat as -> by lia. exact Hc. }
  split.
  - intros t' H. apply outcome_bind in H. destruct H as (q & Hq & H). inversion H; subst. apply Gt. now apply Ho.
  - intros Ph. eapply expects_bind.
    2:{ intros q Hq. cbn [expects]. reflexivity. }
    assert (EV : ratio 1 (sem (OMix C Rr lg) s Ph) (sem (OMix C Rr lg) s P1) t
       = bsum Rr (fun q => w q * (Ph 0%nat c q / P1 0%nat c q))).
    { unfold ratio, Wt. cbn [bprod sem]. fold c. rewrite !Rmult_1_l. unfold Rdiv at 1. rewrite <- bsum_scal_r. apply bsum_ext. intros q Hq. unfold w.
      pose proof (cached_pos _ _ _ _ _ _ Hev (IN c q Hc Hq)). field. split; lra. }
    rewrite EV. eapply expects_ext; [|apply (Hp (fun q => Ph 0%nat c q / P1 0%nat c q))].
    intros q Hq. cbn beta. unfold ratio, Wt. cbn [bprod c_ci c_rep]. fold c. now rewrite !Rmult_1_l.
Qed.

Lemma step_all D ev s P1 so : decl OAll s = Ok so -> (0 < channels s)%nat -> (0 < features s)%nat -> cached ev s P1 ->
  steps D (mkLay OAll s so) ev s P1.
Proof.
  intros Ed HC HF Hev t G. cbn [decl] in Ed. injection Ed as <-.
  cbn [l_out l_op features channels repetitions layer_route l_in] in *.
  destruct (G) as (L & M & Hr & Hc). cbn [features channels repetitions] in L, M, Hr, Hc.
  specialize (Hc 0%nat ltac:(lia)).
  set (t' := mkCtx (repeat (nth 0 (c_ci t) 0%nat) (features s)) (repeat true (features s)) (c_rep t)).
  assert (Ee : enter 1 (channels s) (repetitions s) (features s) t = Ok t').
  { unfold enter. rewrite (validate_good _ _ _ _ _ G); auto; [|now left].
    unfold broadcast. destruct t as [ci mk r]. cbn [c_ci c_mask c_rep] in *. destruct ci as [|c [|]]; try discriminate. subst mk.
    cbn [length hd repeat]. unfold t'. cbn [c_ci c_rep nth]. destruct (Nat.eqb_spec 1 (features s)) as [E|E]; [|reflexivity].
    rewrite <- E. reflexivity. }
  rewrite Ee. cbn [of_result].
  assert (G' : good s t').
  { repeat split; cbn [t' c_ci c_mask c_rep]; rewrite ?repeat_length; auto. intros f Hf. rewrite nth_repeat_lt by exact Hf. exact Hc. }
  split; [intros u H; inversion H; subst; exact G'|]. intros Ph. cbn [expects]. unfold ratio, Wt. cbn [bprod sem]. rewrite !Rmult_1_l.
  assert (E : forall Q : nat -> nat -> nat -> R, bprod (features s) (fun f => Q f (nth f (c_ci t') 0%nat) (c_rep t')) =
    bprod (features s) (fun f => Q f (nth 0 (c_ci t) 0%nat) (c_rep t))).
  { intros Q. apply bprod_ext. intros f Hf. unfold t'. cbn [c_ci c_rep]. now rewrite nth_repeat_lt. }
  now rewrite !E.
Qed.

Lemma rmap_ok {A B} (g : A -> result B) (h : A -> B) l : (forall a, In a l -> g a = Ok (h a)) -> rmap g l = Ok (map h l).
Proof.
  induction l as [|a l IH]; intros H; [reflexivity|]. cbn [rmap map]. rewrite H by now left. cbn [bind].
  rewrite IH by (intros b Hb; apply H; now right). reflexivity.
Qed.
Lemma unsplit_ok {A} k w n (l : nat -> nat -> A) : k <> ByIndex -> exists out, unsplit k w n l = Ok out.
Proof. intros H. destruct k; [eexists; reflexivity|eexists; reflexivity|contradiction]. Qed.

Lemma step_prod D ev s P1 outer k n so : decl (OProd outer k n) s = Ok so -> fits (OProd outer k n) s so -> cached ev s P1 ->
  steps D (mkLay (OProd outer k n) s so) ev s P1.
Proof.
  intros _ (HC & HR & -> & Hk & (w & Hw & EW) & Eo) Hev t G.
  assert (Dw : (features s / 2 = w)%nat) by (rewrite EW; apply Nat.div_mul; lia).
  cbn [l_out l_op layer_route l_in] in *. unfold prod_route. cbv zeta. cbn [l_out l_in].
  set (C := channels s) in *.
  assert (Eso : features so = w /\ channels so = (if outer then (C * C)%nat else C) /\ repetitions so = repetitions s).
  { subst so. destruct outer; cbn [semsh features channels repetitions]; auto. }
  destruct Eso as (Ef & Ec & Er). destruct (G) as (L & M & Hr & Hc). rewrite Ef in L, M, Hc. rewrite Ec in Hc. rewrite Er in Hr.
  set (N := if outer then (C * C)%nat else C) in *. assert (HN : (0 < N)%nat) by (unfold N; destruct outer; nia).
  rewrite Ef, Ec, Er, (enter_good so N (repetitions s) t w w G) by (auto; congruence). cbn [bind].
  set (a := fun c : nat => if outer then (c / C)%nat else c). set (b := fun c : nat => if outer then (c mod C)%nat else c).
  assert (AB : forall c, (c < N)%nat -> (a c < C)%nat /\ (b c < C)%nat).
  { intros c Hcc. unfold a, b, N in *. destruct outer; [|auto]. split; [apply Nat.div_lt_upper_bound; lia|apply Nat.mod_upper_bound; lia]. }
  rewrite (rmap_ok _ (fun c => [a c; b c])).
  2:{ intros c Hin. apply In_nth with (d := 0%nat) in Hin. destruct Hin as (f & Hf & <-). rewrite L in Hf. specialize (Hc f Hf).
      destruct (AB _ Hc) as [Ha Hb]. set (c := nth f (c_ci t) 0%nat) in *. unfold prod_channels.
      assert (E0 : (if outer then outer_map (repeat C 2) c else Ok (repeat c 2)) = Ok [a c; b c]).
      { unfold a, b, N in *. destruct outer; [|reflexivity]. unfold outer_map. cbn [repeat].
        rewrite (nth_error_nth' _ []) by (rewrite iproduct_length; cbn; lia). now rewrite iproduct2 by exact Hc. }
      rewrite E0. cbn [bind]. destruct (Nat.eqb_spec C 1) as [E1|E1]; [|reflexivity]. cbn [map]. f_equal. f_equal; [lia|f_equal; lia]. }
  cbn [bind]. assert (Epp : prod_parts outer 2 = 2%nat) by (destruct outer; reflexivity). rewrite Epp.
  destruct (unsplit_ok k w 2 (fun f i => nth i (nth f (map (fun c => [a c; b c]) (c_ci t)) []) 0%nat) Hk) as (ci & Eci).
  destruct (unsplit_ok k w 2 (fun f i => nth f (c_mask t) false) Hk) as (mk & Emk).
  rewrite Eci, Emk. cbn [bind].
  destruct (unsplit_spec k w 2 _ 0%nat ci Eci) as [Lci Kci]. destruct (unsplit_spec k w 2 _ false mk Emk) as [Lmk Kmk].
  set (r := c_rep t) in *. set (t' := mkCtx ci mk r).
  assert (K0 : forall f, (f < w)%nat -> nth (in_feature k w 2 f 0) ci 0%nat = a (nth f (c_ci t) 0%nat)).
  { intros f Hf. rewrite Kci by lia. rewrite (nth_map_lt' _ _ _ _ 0%nat) by lia. reflexivity. }
  assert (K1 : forall f, (f < w)%nat -> nth (in_feature k w 2 f 1) ci 0%nat = b (nth f (c_ci t) 0%nat)).
  { intros f Hf. rewrite Kci by lia. rewrite (nth_map_lt' _ _ _ _ 0%nat) by lia. reflexivity. }
  assert (G' : good s t').
  { unfold t'. repeat split; cbn [c_ci c_mask c_rep]; [lia| |exact Hr|].
    - rewrite EW. apply (nth_ext _ _ false false); [now rewrite repeat_length|]. intros g Hg. rewrite Lmk in Hg.
      destruct (in_feature_sur k w g Hg) as (f & i & Hf & Hi & ->). rewrite Kmk by assumption. rewrite M, !nth_repeat_lt by (assumption || lia). reflexivity.
    - intros g Hg. rewrite EW in Hg. destruct (in_feature_sur k w g Hg) as (f & i & Hf & Hi & ->). fold C.
      destruct (AB _ (Hc f Hf)). assert (i = 0 \/ i = 1)%nat as [-> | ->] by lia; [rewrite K0|rewrite K1]; assumption. }
  rewrite split_enter_good by (cbn [l_in]; assumption). cbn [of_result].
  split; [intros u H; inversion H; subst; exact G'|]. intros Ph. cbn [expects].
  assert (E : forall Q, Wt (features s) Q t' = Wt w (sem (OProd outer k 2) s Q) t).
  { intros Q. unfold Wt. rewrite EW, (bprod_halves k) by exact Hk. apply bprod_ext. intros f Hf. unfold t'. cbn [c_ci c_rep].
    rewrite K0, K1 by exact Hf. unfold a, b. destruct outer; cbn [sem]; rewrite Dw; reflexivity. }
  unfold ratio. now rewrite !E.
Qed.

(** *** linsum and einsum layers *)
Lemma rows_of_pairs (ps : list (nat * nat)) : rows_of (length ps) [map fst ps; map snd ps] = flat_map (fun p => [fst p; snd p]) ps.
Proof. induction ps as [|p ps IH]; [reflexivity|]. cbn [length rows_of map flat_map firstn app tl]. now rewrite IH. Qed.
Lemma half_channels_pairs ps : half_channels Interleaved (map fst ps) (map snd ps) = Ok (flat_map (fun p => [fst p; snd p]) ps).
Proof.
  unfold half_channels, merge_interleaved. cbn [forallb]. rewrite !map_length, !Nat.eqb_refl. cbn [andb]. now rewrite rows_of_pairs.
Qed.
Lemma flat_pairs_len (ps : list (nat * nat)) : length (flat_map (fun p => [fst p; snd p]) ps) = (length ps * 2)%nat.
Proof. induction ps as [|p ps IH]; [reflexivity|]. cbn [flat_map app length]. rewrite IH. lia. Qed.
Lemma flat_pairs_nth (ps : list (nat * nat)) : forall f, (f < length ps)%nat ->
  nth (f * 2) (flat_map (fun p => [fst p; snd p]) ps) 0%nat = fst (nth f ps (0%nat, 0%nat)) /\
  nth (f * 2 + 1) (flat_map (fun p => [fst p; snd p]) ps) 0%nat = snd (nth f ps (0%nat, 0%nat)).
Proof.
  induction ps as [|p ps IH]; intros f Hf; cbn in Hf; [lia|]. destruct f as [|f]; [split; reflexivity|].
  destruct (IH f ltac:(lia)) as [A B]. cbn [flat_map app]. replace (S f * 2)%nat with (S (S (f * 2))) by lia. cbn [nth Nat.add]. split; assumption.
Qed.
Lemma half_mask_true w : half_mask (repeat true w) = repeat true (w * 2).
Proof. induction w as [|w IH]; [reflexivity|]. unfold half_mask in *. cbn [repeat flat_map app Nat.mul Nat.add]. now rewrite IH. Qed.

Lemma step_pair D l ev s P1 w (n : nat) (g : nat -> nat * nat) (q : nat -> nat -> nat -> nat -> R) (pick : nat -> nat -> nat -> prog (nat * nat)) t :
  l_in l = s -> (0 < channels s)%nat -> (0 < n)%nat -> features s = (w * 2)%nat -> cached ev s P1 ->
  length (c_ci t) = w -> c_mask t = repeat true w -> (c_rep t < repetitions s)%nat ->
  (forall k, (k < n)%nat -> (fst (g k) < channels s)%nat /\ (snd (g k) < channels s)%nat) ->
  let r := c_rep t in
  let c f := nth f (c_ci t) 0%nat in
  let V P f o r := bsum n (fun k => softmax n (q f o r) k * (P (2 * f)%nat (fst (g k)) r * P (2 * f + 1)%nat (snd (g k)) r)) in
  (forall f, (f < w)%nat -> forall h, expects D (pick r f (c f)) h
     (bsum n (fun k => softmax n (q f (c f) r) k * (P1 (2 * f)%nat (fst (g k)) r * P1 (2 * f + 1)%nat (snd (g k)) r) / V P1 f (c f) r * h (g k)))) ->
  (forall f p, (f < w)%nat -> outcome (pick r f (c f)) p -> exists k, (k < n)%nat /\ p = g k) ->
  (forall t', outcome (pbind (picks (pick r) 0 (c_ci t)) (pair_route l t)) t' -> good s t') /\
  forall Ph, expects D (pbind (picks (pick r) 0 (c_ci t)) (pair_route l t)) (ratio (features s) Ph P1) (ratio w (V Ph) (V P1) t).
Proof.
  intros El HC Hn EW Hev L M Hr Hg r c V Hp Ho.
  assert (IN : forall f i, (f < w * 2)%nat -> (i < channels s)%nat -> in_shape s f i r) by (intros f i A B; split; [lia|split; assumption]).
  set (mk' := fun ps : list (nat * nat) => mkCtx (flat_map (fun p => [fst p; snd p]) ps) (repeat true (w * 2)) r).
  assert (Ok_ : forall ps, outcome (picks (pick r) 0 (c_ci t)) ps -> length ps = w /\ good s (mk' ps) /\ pair_route l t ps = Ret (mk' ps)).
  { intros ps H.
    destruct (picks_outcome (pick r) (fun p => exists k, (k < n)%nat /\ p = g k) (0%nat, 0%nat) (c_ci t) 0 ps) as [Lp Kp]; [|exact H|].
    { intros j p Hj H'. apply (Ho j p); [lia|exact H']. }
    rewrite L in Lp, Kp. split; [exact Lp|].
    assert (G' : good s (mk' ps)).
    { unfold mk'. repeat split; cbn [c_ci c_mask c_rep]; [rewrite flat_pairs_len; lia|now rewrite EW|exact Hr|].
      intros f Hf. rewrite EW in Hf. destruct (in_feature_sur Interleaved w f Hf) as (g0 & i & Hg0 & Hi & ->). cbn [in_feature].
      destruct (flat_pairs_nth ps g0 ltac:(lia)) as [A B]. destruct (Kp g0 Hg0) as (k & Hk & Ek). rewrite Ek in A, B. destruct (Hg k Hk).
      assert (i = 0 \/ i = 1)%nat as [-> | ->] by lia; [rewrite Nat.add_0_r, A|rewrite B]; assumption. }
    split; [exact G'|]. unfold pair_route. rewrite half_channels_pairs. cbn [bind]. rewrite M, half_mask_true. fold r. fold (mk' ps).
    now rewrite split_enter_good by (rewrite El; assumption). }
  split.
  - intros t' H. apply outcome_bind in H. destruct H as (ps & Hps & H). destruct (Ok_ ps Hps) as (_ & G' & E). rewrite E in H. now inversion H; subst.
  - intros Ph.
    assert (Hpos : forall f, (f < w)%nat -> 0 < V P1 f (c f) r).
    { intros f Hf. apply bsum_softmax_pos; [exact Hn|]. intros k Hk. destruct (Hg k Hk).
      apply Rmult_lt_0_compat; eapply cached_pos; try exact Hev; apply IN; lia. }
    set (wt := fun f k => softmax n (q f (c f) r) k * (P1 (2 * f)%nat (fst (g k)) r * P1 (2 * f + 1)%nat (snd (g k)) r) / V P1 f (c f) r).
    set (phi := fun f (p : nat * nat) => (Ph (2 * f)%nat (fst p) r * Ph (2 * f + 1)%nat (snd p) r) / (P1 (2 * f)%nat (fst p) r * P1 (2 * f + 1)%nat (snd p) r)).
    assert (EV : ratio w (V Ph) (V P1) t = 1 * bprod (length (c_ci t)) (fun f => bsum n (fun k => wt (0 + f)%nat k * phi (0 + f)%nat (g k)))).
    { rewrite ratio_prod by (intros f Hf; apply Rgt_not_eq, Hpos, Hf). rewrite L, Rmult_1_l. apply bprod_ext. intros f Hf. cbn [Nat.add]. fold r. fold (c f).
      unfold V at 1. unfold Rdiv at 1. rewrite <- bsum_scal_r. apply bsum_ext. intros k Hk. unfold wt, phi. destruct (Hg k Hk).
      pose proof (Hpos f Hf). pose proof (cached_pos _ _ _ _ _ _ Hev (IN (2 * f)%nat (fst (g k)) ltac:(lia) ltac:(assumption))).
      pose proof (cached_pos _ _ _ _ _ _ Hev (IN (2 * f + 1)%nat (snd (g k)) ltac:(lia) ltac:(assumption))). field. repeat split; lra. }
    rewrite EV. eapply expects_bind.
    + apply (picks_expects D n (pick r) g wt phi (0%nat, 0%nat) (c_ci t) 0 1). intros j Hj h. apply Hp. lia.
    + intros ps Hps. destruct (Ok_ ps Hps) as (Lp & G' & E). rewrite E. cbn [expects]. rewrite (ratio_good s ev) by assumption.
      rewrite EW, (bprod_halves Interleaved) by discriminate. rewrite L, Rmult_1_l. apply bprod_ext. intros f Hf. cbn [in_feature Nat.add]. unfold mk'. cbn [c_ci c_rep].
      destruct (flat_pairs_nth ps f ltac:(lia)) as [A B]. rewrite Nat.add_0_r, A, B. unfold phi.
      replace (f * 2)%nat with (2 * f)%nat by lia. unfold Rdiv. rewrite Rinv_mult. ring.
Qed.
