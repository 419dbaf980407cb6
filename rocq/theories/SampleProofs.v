(** The sampler follows the circuit's (conditional) distribution. *)
From Coq Require Import List Arith Bool Lia Lra Permutation Sorted.
From Verif Require Import Base ScopeModel ScopeProofs CircuitModel CircuitSpec CircuitBasics CircuitEval Integral CircuitMarg SampleModel SampleSpec SampleExp.
Import ListNotations.
Local Open Scope R_scope.

Section Sampler.
Variables (D : nat -> domain) (W : nat) (ev : option row) (e : row).
Variables (h : nat -> R -> R) (I : leaf -> nat -> nat -> nat -> R).

(** leaf scores: evidence cells by their density, missing cells by the integral of
    the test function *)
Definition sc_h (l : leaf) (f c r : nat) : lval :=
  match e (colv l f) with Some a => l_lp l f c r a | None => lfrom (I l f c r) end.

Definition Q1 m f c := prob m e f c 0.
Definition Qh m f c := pev sc_h m f c 0.
Definition tst (q : list nat) (y : row) : R := lprod q (fun v => if isnone (e v) then cell (h v) (y v) else 1).

Definition leaf_int (m : module) : Prop := forall l f c r, In l (leaves_of m) -> leaf_range l f c r ->
  sums (D (colv l f)) (fun a => pr (l_lp l f c r a) * h (colv l f) a) (I l f c r).
Hypothesis hpos : forall v a, 0 <= h v a.

Definition evok (m : module) : Prop :=
  (ev = Some e /\ sums_positive m e) \/ (ev = None /\ forall v, In v (query (scope_of m)) -> e v = None).

Lemma Qh_zero m : wf m -> aligned m -> forall f c r, pos m f c r -> prob m e f c r = 0 -> pev sc_h m f c r = 0.
Proof.
  intros Wf A f c r P. revert f c r P.
  apply (pos_induction (fun m f c r => prob m e f c r = 0 -> pev sc_h m f c r = 0)); auto.
  - intros l f c r Hok Hf Hc Hr. unfold prob, loglik, pev. cbn [evalm]. unfold leaf_score, sc_h, colv.
    destruct (e _); [auto|]. rewrite pr_Fin0. lra.
  - intros ch co rr lg f c r W0 A0 HP IH. cbn in W0. destruct W0 as [W0 _].
    pose proof (wf_cpos ch (wf_wf1 ch W0)) as Cp. rewrite prob_pev, !pev_sum by assumption. intros H.
    apply bsum_zero. intros i Hi.
    assert (softmax (channels (out_shape ch)) (fun i => lg f i c (bidx rr r)) i * pev (leaf_score e) ch f i (bidx (ll_reps ch) r) = 0) as E.
    { eapply bsum_nonneg_zero in H; [exact H| |exact Hi]. intros j Hj. apply Rmult_le_pos; [apply Rlt_le, softmax_pos; assumption|apply pev_nonneg]. }
    apply Rmult_integral in E. destruct E as [E|E]; [rewrite E; ring|].
    destruct (IH i Hi) as [_ IHi]. rewrite IHi; [ring|exact E].
  - intros sc pre ch post g c r _ _ HP W0 A0 _ EN IH. rewrite prob_pev, !pev_cat1 by apply HP. exact IH.
  - intros sc pre ch post f k r _ _ HP W0 A0 _ EN IH. rewrite prob_pev, !pev_cat2 by apply HP. exact IH.
  - intros ch c r W0 A0 HP IH. rewrite prob_pev, !pev_product. intros H.
    assert (exists f, (f < features (out_shape ch))%nat /\ pev (leaf_score e) ch f c r = 0) as (f & Hf & E).
    { revert H. generalize (features (out_shape ch)). intros n. induction n as [|n IHn]; cbn [bprod]; [lra|].
      intros H. apply Rmult_integral in H. destruct H as [H|H].
      - destruct (IHn H) as (f & Hf & E). exists f. split; [lia|exact E].
      - exists n. split; [lia|exact H]. }
    apply bprod_zero with (i := f); [exact Hf|]. destruct (IH f Hf) as [_ IHf]. apply IHf. exact E.
Qed.

(** ** Specification of a sampling step *)
Definition spec (S : row -> prog row) (C : nat -> Prop) (T : row -> R) (rho : R) : Prop :=
  (forall y y', (forall v, C v -> y v = y' v) -> T y = T y') /\
  forall x, (forall v, C v -> x v = e v) ->
    (forall A, (forall y, (forall v, ~ C v -> y v = x v) -> A y = A x) ->
       expects D (S x) (fun y => A y * T y) (A x * rho)) /\
    (forall y, outcome (S x) y -> forall v, ~ C v -> y v = x v).

Lemma spec_ext S S' C C' T T' rho rho' :
  (forall x, S x = S' x) -> (forall v, C v <-> C' v) -> (forall y, T y = T' y) -> rho = rho' ->
  spec S C T rho -> spec S' C' T' rho'.
Proof.
  intros ES EC ET -> [H1 H2]. split.
  - intros y y' E. rewrite <- !ET. apply H1. intros v Hv. apply E. now apply EC.
  - intros x Hx. destruct (H2 x) as [H3 H4]; [intros v Hv; apply Hx; now apply EC|]. rewrite <- ES. split.
    + intros A HA. eapply expects_ext; [|apply (H3 A)].
      * intros y _. cbn beta. now rewrite ET.
      * intros y Hy. apply HA. intros v Hv. apply Hy. intros C0. apply Hv. now apply EC.
    + intros y Hy v Hv. apply H4; [assumption|]. intros C0. apply Hv. now apply EC.
Qed.

Lemma spec_skip : spec (fun x => Ret x) (fun _ => False) (fun _ => 1) 1.
Proof.
  split; [reflexivity|]. intros x _. split.
  - intros A _. cbn. reflexivity.
  - intros y Hy. inversion Hy; subst. reflexivity.
Qed.

Lemma spec_seq S1 S2 C1 C2 T1 T2 r1 r2 : spec S1 C1 T1 r1 -> spec S2 C2 T2 r2 -> (forall v, C1 v -> ~ C2 v) ->
  spec (fun x => pbind (S1 x) S2) (fun v => C1 v \/ C2 v) (fun y => T1 y * T2 y) (r1 * r2).
Proof.
  intros [L1 H1] [L2 H2] Dj. split.
  - intros y y' E. rewrite (L1 y y'), (L2 y y'); auto.
  - intros x Hx. destruct (H1 x) as [E1 O1]; [intros; apply Hx; auto|].
    assert (forall y, outcome (S1 x) y -> forall v, C2 v -> y v = e v) as Pre2.
    { intros y Hy v Hv. rewrite (O1 y Hy); [apply Hx; auto|]. intros C. exact (Dj v C Hv). }
    split.
    + intros A HA. apply expects_bind with (u2 := fun y => (A y * T1 y) * r2).
      * eapply expects_ext; [|replace (A x * (r1 * r2)) with ((A x * r2) * r1) by ring; apply (E1 (fun y => A y * r2))].
        -- intros y _. cbn beta. ring.
        -- intros y Hy. rewrite (HA y); [reflexivity|]. intros v Hv. apply Hy. tauto.
      * intros y Hy. destruct (H2 y (Pre2 y Hy)) as [E2 O2].
        eapply expects_ext; [|apply (E2 (fun z => A z * T1 z))].
        -- intros z _. cbn beta. ring.
        -- intros z Hz. f_equal.
           ++ rewrite (HA z), (HA y); [reflexivity| |].
              ** intros v Hv. apply (O1 y Hy). tauto.
              ** intros v Hv. rewrite Hz by tauto. apply (O1 y Hy). tauto.
           ++ apply L1. intros v Hv. apply Hz. auto.
    + intros y Hy v Hv. apply outcome_bind in Hy. destruct Hy as (z & Hz & Hy).
      destruct (H2 z (Pre2 z Hz)) as [_ O2]. rewrite (O2 y Hy) by tauto. apply (O1 z Hz). tauto.
Qed.

(** ** Leaves *)
Lemma fill_spec l r : forall cols ci mask f0, NoDup cols -> length ci = length cols -> length mask = length cols ->
  (forall j, (j < length cols)%nat -> nth j cols 0%nat = colv l (f0 + j)) ->
  (forall j, (j < length cols)%nat -> nth j mask false = true -> 
     sums (D (colv l (f0 + j))) (fun a => pr (l_lp l (f0 + j) (nth j ci 0%nat) r a) * h (colv l (f0 + j)) a) (I l (f0 + j) (nth j ci 0%nat) r)) ->
  (forall j, (j < length cols)%nat -> nth j mask false = true -> pr (leaf_score e l (f0 + j) (nth j ci 0%nat) r) <> 0) ->
  spec (fill_cells false l r f0 cols (combine ci mask))
       (fun v => exists j, (j < length cols)%nat /\ nth j mask false = true /\ v = nth j cols 0%nat)
       (fun y => bprod (length cols) (fun j => if nth j mask false then tst [nth j cols 0%nat] y else 1))
       (bprod (length cols) (fun j => if nth j mask false
          then pr (sc_h l (f0 + j) (nth j ci 0%nat) r) / pr (leaf_score e l (f0 + j) (nth j ci 0%nat) r) else 1)).
Proof.
  induction cols as [|v cols IH]; intros ci mask f0 ND Lc Lm Hcol HI HQ.
  - eapply spec_ext; [| | |reflexivity|apply spec_skip].
    + intros x. reflexivity.
    + intros v. split; [tauto|]. intros (j & Hj & _). cbn in Hj. lia.
    + reflexivity.
  - destruct ci as [|c ci]; [discriminate|]. destruct mask as [|b mask]; [discriminate|].
    cbn [length] in Lc, Lm. injection Lc as Lc. injection Lm as Lm.
    inversion ND as [|? ? Hv ND']; subst.
    assert (v = colv l f0) as Ev. { specialize (Hcol 0%nat ltac:(cbn; lia)). cbn [nth] in Hcol. now rewrite Nat.add_0_r in Hcol. }
    set (step := fun x : row => match x v, b with
       | None, true => Draw l f0 c r (fun a => Ret (upd x v (Some a)))
       | _, _ => Ret x end).
    assert (spec step (fun u => b = true /\ u = v) (fun y => if b then tst [v] y else 1)
       (if b then pr (sc_h l f0 c r) / pr (leaf_score e l f0 c r) else 1)) as HS.
    { unfold step. destruct b.
      - split.
        + intros y y' E. unfold tst. cbn [lprod]. rewrite (E v); auto.
        + intros x Hx. assert (x v = e v) as Exv by (apply Hx; auto). rewrite Exv.
          assert (pr (leaf_score e l f0 c r) <> 0) as Hq.
          { specialize (HQ 0%nat ltac:(cbn; lia) eq_refl). cbn [nth] in HQ. now rewrite Nat.add_0_r in HQ. }
          unfold leaf_score in *. unfold sc_h. unfold colv in *. rewrite <- Ev in *. destruct (e v) as [a0|] eqn:Ee.
          * split.
            -- intros A HA. cbn [expects]. unfold tst. cbn [lprod]. rewrite Ee. cbn [isnone]. field. exact Hq.
            -- intros y Hy. inversion Hy; subst. reflexivity.
          * specialize (HI 0%nat ltac:(cbn; lia) eq_refl). cbn [nth] in HI. rewrite Nat.add_0_r in HI.
            rewrite <- Ev in HI.
            split.
            -- intros A HA. cbn [expects]. exists (fun a => A x * h v a). split.
               ++ intros a. unfold tst. cbn [lprod]. rewrite Ee. cbn [isnone]. rewrite upd_same. cbn [cell].
                  rewrite (HA (upd x v (Some a))); [ring|]. intros u Hu. apply upd_other. intros ->. tauto.
               ++ rewrite <- Ev. rewrite pr_Fin0.
                  rewrite pr_lfrom; [|eapply sums_nonneg; [|exact HI]; intros a; apply Rmult_le_pos; [apply pr_nonneg|apply hpos]].
                  replace (A x * (I l f0 c r / 1)) with (A x * I l f0 c r) by field.
                  eapply sums_ext; [|apply (sums_scal _ (A x) _ _ HI)]. intros a. cbn beta. ring.
            -- intros y Hy u Hu. inversion Hy as [| |? ? ? ? ? a ? Ho]; subst. inversion Ho; subst.
               apply upd_other. intros ->. tauto.
      - eapply spec_ext; [| | |reflexivity|apply spec_skip].
        + intros x. now destruct (x v).
        + intros u. intuition congruence.
        + reflexivity. }
    assert (forall x, fill_cells false l r f0 (v :: cols) (combine (c :: ci) (b :: mask)) x
      = pbind (step x) (fill_cells false l r (S f0) cols (combine ci mask))) as EF.
    { intros x. cbn [combine fill_cells]. unfold step. destruct (x v), b; reflexivity. }
    eapply spec_ext; [intros x; symmetry; apply EF| | | |eapply spec_seq; [exact HS|apply (IH ci mask (S f0) ND' Lc Lm)|]].
    + intros u. split.
      * intros [[-> ->]|(j & Hj & Hm & ->)]; [exists 0%nat; cbn; split; [lia|auto]|exists (S j); cbn; split; [lia|auto]].
      * intros (j & Hj & Hm & ->). destruct j as [|j]; [left; auto|right; exists j; cbn in *; split; [lia|auto]].
    + intros y. cbn [length]. rewrite bprod_S_first. reflexivity.
    + cbn [length]. rewrite bprod_S_first. cbn [nth]. rewrite Nat.add_0_r. f_equal. apply bprod_ext. intros j _.
      now rewrite Nat.add_succ_r.
    + intros j Hj. specialize (Hcol (S j) ltac:(cbn; lia)). cbn [nth] in Hcol. now rewrite Nat.add_succ_r in Hcol.
    + intros j Hj Hm. specialize (HI (S j) ltac:(cbn; lia) Hm). cbn [nth] in HI. now rewrite Nat.add_succ_r in HI.
    + intros j Hj Hm. specialize (HQ (S j) ltac:(cbn; lia) Hm). cbn [nth] in HQ. now rewrite Nat.add_succ_r in HQ.
    + intros u [_ ->] (j & Hj & _ & E). apply Hv. rewrite E. now apply nth_In.
Qed.

(** ** Sum: drawing the channels *)
Lemma choose_expects n (pick : nat -> nat -> prog nat) (p : nat -> nat -> nat -> R) K (phi : nat -> nat -> R) :
  forall ci f0, (forall j, (j < length ci)%nat -> pick (f0 + j)%nat (nth j ci 0%nat) = Choose n (p (f0 + j)%nat (nth j ci 0%nat)) (fun i => Ret i)) ->
  expects D (choose_channels pick f0 ci) (fun ns => K * bprod (length ci) (fun j => phi (f0 + j)%nat (nth j ns 0%nat)))
    (K * bprod (length ci) (fun j => bsum n (fun i => p (f0 + j)%nat (nth j ci 0%nat) i * phi (f0 + j)%nat i))).
Proof.
  intros ci. revert K. induction ci as [|c ci IH]; intros K f0 Hp.
  - cbn. reflexivity.
  - cbn [choose_channels length].
    pose proof (Hp 0%nat ltac:(cbn; lia)) as H0. rewrite Nat.add_0_r in H0. cbn [nth] in H0. rewrite H0.
    cbn [pbind expects].
    set (V := bprod (length ci) (fun j => bsum n (fun i => p (S f0 + j)%nat (nth j ci 0%nat) i * phi (S f0 + j)%nat i))).
    exists (fun i => K * phi f0 i * V). split.
    + intros i Hi Hw. eapply expects_bind.
      * apply (IH (K * phi f0 i) (S f0)). intros j Hj. specialize (Hp (S j) ltac:(cbn; lia)).
        cbn [nth] in Hp. now rewrite Nat.add_succ_r in Hp.
      * intros ns _. cbn [expects]. rewrite bprod_S_first. cbn [nth]. rewrite Nat.add_0_r.
        rewrite Rmult_assoc. f_equal. f_equal. apply bprod_ext. intros j _. now rewrite Nat.add_succ_r.
    + rewrite bprod_S_first. cbn [nth]. rewrite Nat.add_0_r.
      assert (bprod (length ci) (fun i => bsum n (fun i0 => p (f0 + S i)%nat (nth i ci 0%nat) i0 * phi (f0 + S i)%nat i0)) = V) as ->.
      { apply bprod_ext. intros j _. now rewrite Nat.add_succ_r. }
      rewrite <- Rmult_assoc, <- bsum_scal, <- bsum_scal_r. apply bsum_ext. intros i _. ring.
Qed.

Lemma choose_outcome n (pick : nat -> nat -> prog nat) (p : nat -> nat -> nat -> R) :
  forall ci f0 ns, (forall j, (j < length ci)%nat -> pick (f0 + j)%nat (nth j ci 0%nat) = Choose n (p (f0 + j)%nat (nth j ci 0%nat)) (fun i => Ret i)) ->
  outcome (choose_channels pick f0 ci) ns ->
  length ns = length ci /\ forall j, (j < length ci)%nat -> (nth j ns 0 < n)%nat /\ p (f0 + j)%nat (nth j ci 0%nat) (nth j ns 0%nat) <> 0.
Proof.
  induction ci as [|c ci IH]; intros f0 ns Hp H.
  - cbn in H. inversion H; subst. split; [reflexivity|]. intros j Hj. cbn in Hj. lia.
  - cbn [choose_channels] in H.
    pose proof (Hp 0%nat ltac:(cbn; lia)) as H0. rewrite Nat.add_0_r in H0. cbn [nth] in H0. rewrite H0 in H.
    apply outcome_bind in H. destruct H as (i & Hi & H).
    inversion Hi as [|? ? ? i' ? Hi' Hw Ho|]; subst. inversion Ho; subst. clear Hi Ho.
    apply outcome_bind in H. destruct H as (ms & Hms & H). inversion H; subst. clear H.
    destruct (IH (S f0) ms) as [L A].
    + intros j Hj. specialize (Hp (S j) ltac:(cbn; lia)). cbn [nth] in Hp. now rewrite Nat.add_succ_r in Hp.
    + exact Hms.
    + split; [cbn; lia|]. intros j Hj. destruct j as [|j].
      * cbn. rewrite Nat.add_0_r. auto.
      * cbn [nth]. rewrite Nat.add_succ_r. apply A. cbn in Hj. lia.
Qed.

(** ** The whole circuit *)
Definition tfull (m : module) (t : ctx) : Prop :=
  length (c_ci t) = features (out_shape m) /\ length (c_mask t) = features (out_shape m) /\ c_rep t = 0%nat /\
  forall f, (f < features (out_shape m))%nat -> (nth f (c_ci t) 0 < channels (out_shape m))%nat.

Definition Cset (m : module) (mask : list bool) (v : nat) : Prop :=
  exists f, (f < features (out_shape m))%nat /\ nth f mask false = true /\ In v (nthq m f).
Definition Tset (m : module) (mask : list bool) (y : row) : R :=
  bprod (features (out_shape m)) (fun f => if nth f mask false then tst (nthq m f) y else 1).
Definition Rset (m : module) (t : ctx) : R :=
  bprod (features (out_shape m)) (fun f => if nth f (c_mask t) false
     then Qh m f (nth f (c_ci t) 0%nat) / Q1 m f (nth f (c_ci t) 0%nat) else 1).

Definition sspec (m : module) : Prop := forall t, tfull m t ->
  (forall f, (f < features (out_shape m))%nat -> nth f (c_mask t) false = true -> Q1 m f (nth f (c_ci t) 0%nat) <> 0) ->
  spec (sample_m false W ev m t) (Cset m (c_mask t)) (Tset m (c_mask t)) (Rset m t).

Lemma active_below_full n ci mask r : (forall f, (f < length ci)%nat -> (nth f ci 0 < n)%nat) -> active_below n (mkCtx ci mask r) = true.
Proof.
  intros H. unfold active_below. cbn [c_ci c_mask]. apply forallb_forall. intros [c b] Hin. cbn [fst snd].
  apply in_combine_l in Hin. apply In_nth with (d := 0%nat) in Hin. destruct Hin as (f & Hf & <-).
  destruct b; [|reflexivity]. cbn [implb]. apply Nat.ltb_lt. now apply H.
Qed.

Lemma validate_full widths n nr t : In (length (c_ci t)) widths -> length (c_ci t) = length (c_mask t) -> c_rep t = 0%nat ->
  (forall f, (f < length (c_ci t))%nat -> (nth f (c_ci t) 0 < n)%nat) -> (0 < n)%nat -> (0 < nr)%nat ->
  validate widths n nr t = true.
Proof.
  intros Hin HL Hr Hc Hn Hnr. unfold validate. rewrite HL, Nat.eqb_refl. rewrite <- HL.
  assert (existsb (Nat.eqb (length (c_ci t))) widths = true) as ->.
  { apply existsb_exists. exists (length (c_ci t)). split; [assumption|apply Nat.eqb_refl]. }
  destruct t as [ci mask r]. cbn [c_ci c_mask c_rep] in *. rewrite active_below_full by assumption.
  subst r. destruct n; [lia|]. destruct nr; [lia|]. reflexivity.
Qed.

Lemma bcast_full n t : length (c_ci t) = n -> broadcast n t = Ok t.
Proof. intros E. unfold broadcast. now rewrite E, Nat.eqb_refl. Qed.

Lemma reps_pos m : wf m -> (exists s, ll_shape m = Ok s) -> (0 < ll_reps m)%nat -> (0 < repetitions (out_shape m))%nat.
Proof.
  induction m as [l|c co rr lg IH|d2 sc cs IH|c IH] using module_ind'; intros Wf (s & Hs) Hr.
  - exact Hr.
  - cbn in Hr. cbn [out_shape repetitions].
    cbn in Wf. destruct Wf as [Wf _].
    cbn [ll_shape] in Hs. destruct (ll_shape c) as [t|] eqn:Ec; cbn [bind] in Hs; [|discriminate].
    destruct (ll_shape_spec c t Wf Ec) as (E1 & E2 & E3). rewrite E1, E2, !bcast_same in Hs. cbn [bind] in Hs.
    rewrite E3 in Hs. unfold bcast in Hs.
    destruct (Nat.eqb_spec (ll_reps c) 1); [exact Hr|].
    destruct (Nat.eqb_spec (ll_reps c) rr); [lia|]. destruct (Nat.eqb_spec rr 1); [lia|discriminate].
  - pose proof (wf_cat_children _ _ _ Wf) as Wc. pose proof (ll_shape_cat _ _ _ _ Wc Hs) as Hch.
    pose proof Wf as Wf'. cbn in Wf'. destruct Wf' as (Hne & _). destruct cs as [|c0 cs]; [congruence|].
    destruct (Hch c0 (or_introl eq_refl)) as [S0 _]. inversion IH as [|? ? IH0 _]; subst. inversion Wc as [|? ? W0 _]; subst.
    cbn in Hr. specialize (IH0 W0 S0 Hr). destruct d2; exact IH0.
  - cbn in *. apply IH; auto. destruct (ll_shape c); [eauto|discriminate].
Qed.

Definition reps_fine (m : module) : Prop := (exists s, ll_shape m = Ok s) /\ (0 < ll_reps m)%nat.
Definition cols_fine (m : module) : Prop := forall v, In v (query (scope_of m)) -> (v < W)%nat.

Lemma reps_fine_sum ch co rr lg : wf ch -> reps_fine (MSum ch co rr lg) -> reps_fine ch /\ (0 < rr)%nat.
Proof.
  intros Wf [(s & Hs) Hr].
  pose proof Hs as Hs'. cbn [ll_shape] in Hs'. destruct (ll_shape ch) as [t|] eqn:Ec; cbn [bind] in Hs'; [|discriminate].
  destruct (ll_shape_spec ch t Wf Ec) as (E1 & E2 & E3). rewrite E1, E2, !bcast_same in Hs'. cbn [bind] in Hs'.
  rewrite E3 in Hs'. unfold bcast in Hs'. cbn in Hr.
  assert ((0 < ll_reps ch)%nat /\ (0 < rr)%nat) as [A B].
  { destruct (Nat.eqb_spec (ll_reps ch) 1); [split; lia|].
    destruct (Nat.eqb_spec (ll_reps ch) rr); [lia|]. destruct (Nat.eqb_spec rr 1); [lia|discriminate]. }
  split; [|exact B]. split; [|exact A]. exists t. exact Ec.
Qed.

Lemma pos0 m f c : reps_fine m -> (f < features (out_shape m))%nat -> (c < channels (out_shape m))%nat -> pos m f c 0.
Proof. intros [A B] Hf Hc. repeat split; auto. Qed.

(** the posterior over input channels *)
Lemma Q1_sum ch co rr lg f c : wf ch -> Q1 (MSum ch co rr lg) f c =
  bsum (channels (out_shape ch)) (fun i => softmax (channels (out_shape ch)) (fun i => lg f i c 0%nat) i * Q1 ch f i).
Proof.
  intros Wf. unfold Q1. rewrite prob_pev, pev_sum by apply (wf_cpos ch (wf_wf1 ch Wf)).
  unfold bidx. destruct (Nat.eqb rr 1), (Nat.eqb (ll_reps ch) 1); reflexivity.
Qed.
Lemma Qh_sum ch co rr lg f c : wf ch -> Qh (MSum ch co rr lg) f c =
  bsum (channels (out_shape ch)) (fun i => softmax (channels (out_shape ch)) (fun i => lg f i c 0%nat) i * Qh ch f i).
Proof.
  intros Wf. unfold Qh. rewrite pev_sum by apply (wf_cpos ch (wf_wf1 ch Wf)).
  unfold bidx. destruct (Nat.eqb rr 1), (Nat.eqb (ll_reps ch) 1); reflexivity.
Qed.

Definition posterior ch (lg : nat -> nat -> nat -> nat -> R) (f c i : nat) : R :=
  softmax (channels (out_shape ch)) (fun i => lg f i c 0%nat) i * Q1 ch f i
  / bsum (channels (out_shape ch)) (fun i => softmax (channels (out_shape ch)) (fun i => lg f i c 0%nat) i * Q1 ch f i).

Lemma evok_sum ch co rr lg : evok (MSum ch co rr lg) -> evok ch.
Proof.
  intros [[E H]|[E H]]; [left|right; auto]. split; [assumption|].
  intros n f c Hn. apply H. now constructor.
Qed.

Lemma evok_Q1 m : wf m -> aligned m -> reps_fine m -> ev = None -> evok m ->
  forall f c, (f < features (out_shape m))%nat -> (c < channels (out_shape m))%nat -> Q1 m f c = 1.
Proof.
  intros Wf A Rf E [[E' _]|[_ H]] f c Hf Hc; [congruence|].
  apply prob_all_nan; auto; [now apply pos0|].
  intros v Hv. apply H. apply (wf_union m (wf_wf1 m Wf)). eauto.
Qed.


Definition sp ch (lg : nat -> nat -> nat -> nat -> R) f c i : R :=
  let g := match ev with
           | None => fun i => Fin (lg f i c 0%nat)
           | Some e' => fun i => ladd (Fin (lg f i c 0%nat)) (loglik ch e' f i 0) end in
  pr (g i) / bsum (channels (out_shape ch)) (fun j => pr (g j)).

Lemma pick_eq ch co rr lg f c : wf ch -> aligned ch -> reps_fine (MSum ch co rr lg) -> evok (MSum ch co rr lg) ->
  (f < features (out_shape ch))%nat -> (c < co)%nat ->
  sum_pick false ev ch co rr lg 0 f c = Choose (channels (out_shape ch)) (sp ch lg f c) (fun i => Ret i) /\
  forall i, (i < channels (out_shape ch))%nat -> sp ch lg f c i = posterior ch lg f c i.
Proof.
  intros Wf A Rf Ev Hf Hc. destruct (reps_fine_sum _ _ _ _ Wf Rf) as [Rc Hrr].
  pose proof (wf_cpos ch (wf_wf1 ch Wf)) as Cp.
  unfold sum_pick, sp. assert (Nat.ltb c co = true) as -> by now apply Nat.ltb_lt.
  assert (Nat.ltb 0 rr = true) as -> by now apply Nat.ltb_lt. cbn [andb].
  set (n := channels (out_shape ch)) in *.
  set (Z := bsum n (fun j => exp (lg f j c 0%nat))).
  assert (0 < Z) as HZ by (apply bsum_pos; [assumption|intros; apply exp_pos]).
  assert (forall i, softmax n (fun i => lg f i c 0%nat) i = exp (lg f i c 0%nat) / Z) as SM by reflexivity.
  assert (bsum n (fun i => softmax n (fun i => lg f i c 0%nat) i * Q1 ch f i) <> 0) as Npos.
  { unfold n. rewrite <- (Q1_sum ch co rr lg f c Wf). destruct Ev as [[_ H]|[E H]].
    - apply H; [constructor|exact Logic.I|exact Hf|exact Hc].
    - rewrite (evok_Q1 (MSum ch co rr lg)); [lra| | | |exact E|right; split; assumption|exact Hf|exact Hc].
      + cbn. split; [assumption|lia].
      + exact A.
      + exact Rf. }
  assert (forall (w : nat -> R), (forall i, (i < n)%nat -> w i = exp (lg f i c 0%nat) * Q1 ch f i) ->
    0 < bsum n w /\ (forall i, (i < n)%nat -> w i / bsum n w = posterior ch lg f c i)) as Key.
  { intros w Hw. assert (bsum n w = Z * bsum n (fun i => softmax n (fun i => lg f i c 0%nat) i * Q1 ch f i)) as EB.
    { rewrite <- bsum_scal. apply bsum_ext. intros i Hi. rewrite Hw, SM by assumption. field. lra. }
    assert (0 <= bsum n (fun i => softmax n (fun i => lg f i c 0%nat) i * Q1 ch f i)) as Nn.
    { apply bsum_nonneg. intros i Hi. apply Rmult_le_pos; [apply Rlt_le, softmax_pos; assumption|apply pr_nonneg]. }
    split.
    - rewrite EB. apply Rmult_lt_0_compat; lra.
    - intros i Hi. rewrite EB, Hw by assumption. unfold posterior. fold n. rewrite SM. field. split; lra. }
  destruct Ev as [[E H]|[E H]]; rewrite E.
  - assert (Nat.ltb 0 (ll_reps ch) = true) as -> by (apply Nat.ltb_lt; apply Rc).
    unfold sample_logits.
    destruct (Key (fun i => pr (ladd (Fin (lg f i c 0%nat)) (loglik ch e f i 0)))) as [K1 K2].
    { intros i Hi. rewrite pr_ladd. reflexivity. }
    destruct (Rlt_dec 0 _) as [_|C]; [|contradiction]. split; [reflexivity|exact K2].
  - unfold sample_logits.
    assert (forall i, (i < n)%nat -> Q1 ch f i = 1) as Q1e.
    { intros i Hi. apply evok_Q1; auto. right. split; assumption. }
    destruct (Key (fun i => pr (Fin (lg f i c 0%nat)))) as [K1 K2].
    { intros i Hi. rewrite Q1e by assumption. cbn [pr]. ring. }
    destruct (Rlt_dec 0 _) as [_|C]; [|contradiction]. split; [reflexivity|exact K2].
Qed.

Lemma leaf_spec l : leaf_okb l = true -> leaf_int (MLeaf l) -> cols_fine (MLeaf l) -> sspec (MLeaf l).
Proof.
  intros Hok HI Hcols t (Lc & Lm & Hr & Hch) HQ.
  pose proof (proj1 (leaf_okb_spec l) Hok) as (Hv & Hne & Hcp & Hrp).
  cbn [out_shape features channels] in *.
  assert (NoDup (query (l_scope l))) as ND by apply Hv.
  set (q := query (l_scope l)) in *.
  assert (forall x, sample_m false W ev (MLeaf l) t x = fill_cells false l 0 0 q (combine (c_ci t) (c_mask t)) x) as EQ.
  { intros x. cbn [sample_m]. unfold sample_leaf.
    rewrite validate_full; auto; [| |now rewrite Lc, Lm|].
    2:{ right. left. now rewrite Lc. }
    2:{ rewrite Lc. exact Hch. }
    unfold scope_cols. fold q.
    assert (forallb (fun v => Nat.ltb v W) q = true) as ->.
    { apply forallb_forall. intros v Hv'. apply Nat.ltb_lt. now apply Hcols. }
    unfold slice_leaf. rewrite Lm, Nat.eqb_refl.
    assert (forallb (fun p : nat * bool => Nat.ltb (fst p) (l_ch l)) (combine (c_ci t) (c_mask t)) = true) as ->.
    { apply forallb_forall. intros [c b] Hin. cbn [fst]. apply in_combine_l in Hin.
      apply In_nth with (d := 0%nat) in Hin. destruct Hin as (f & Hf & <-). apply Nat.ltb_lt. apply Hch. now rewrite <- Lc. }
    rewrite Hr.
    destruct (row_active q (combine (c_ci t) (c_mask t)) x) eqn:RA; [reflexivity|].
    clear - RA. revert RA. generalize (combine (c_ci t) (c_mask t)). intros cm. generalize 0%nat at 2.
    revert cm. induction q as [|v q IH]; intros cm f RA; [reflexivity|].
    destruct cm as [|[c b] cm]; [reflexivity|]. unfold row_active in RA. cbn [combine existsb fst snd] in RA.
    apply orb_false_iff in RA. destruct RA as [RA1 RA2]. cbn [fill_cells].
    destruct (x v), b; cbn in RA1; try discriminate; apply IH; exact RA2. }
  eapply spec_ext; [intros x; symmetry; apply EQ| | | |apply (fill_spec l 0 q (c_ci t) (c_mask t) 0 ND Lc Lm)].
  - intros v. unfold Cset. cbn [out_shape features]. fold q. split.
    + intros (j & Hj & Hm & ->). exists j. repeat split; auto. rewrite nthq_leaf by assumption. now left.
    + intros (j & Hj & Hm & Hin). exists j. repeat split; auto. rewrite nthq_leaf in Hin by assumption.
      destruct Hin as [<-|[]]. reflexivity.
  - intros y. unfold Tset. cbn [out_shape features]. apply bprod_ext. intros j Hj.
    rewrite nthq_leaf by assumption. reflexivity.
  - unfold Rset. cbn [out_shape features]. apply bprod_ext. intros j Hj. reflexivity.
  - reflexivity.
  - intros j Hj Hm. apply HI; [now left|]. repeat split; [exact Hj|apply Hch; exact Hj|exact Hrp].
  - intros j Hj Hm. apply (HQ j Hj Hm).
Qed.

Lemma sum_spec ch co rr lg : wf (MSum ch co rr lg) -> aligned ch -> reps_fine (MSum ch co rr lg) -> evok (MSum ch co rr lg) ->
  sspec ch -> sspec (MSum ch co rr lg).
Proof.
  intros Wf A Rf Ev IH t (Lc & Lm & Hr & Hch) HQ.
  cbn in Wf. destruct Wf as [Wf Hco]. destruct (reps_fine_sum _ _ _ _ Wf Rf) as [Rc Hrr].
  cbn [out_shape features channels] in *.
  set (F := features (out_shape ch)) in *. set (n := channels (out_shape ch)).
  assert (forall j, (j < length (c_ci t))%nat ->
    sum_pick false ev ch co rr lg 0 (0 + j) (nth j (c_ci t) 0%nat) = Choose n (sp ch lg (0 + j) (nth j (c_ci t) 0%nat)) (fun i => Ret i)) as Hpick.
  { intros j Hj. rewrite Lc in Hj. apply (pick_eq ch co rr lg j _ Wf A Rf Ev Hj). now apply Hch. }
  assert (forall x, sample_m false W ev (MSum ch co rr lg) t x =
     pbind (choose_channels (sum_pick false ev ch co rr lg 0) 0 (c_ci t)) (fun ns => sample_m false W ev ch (mkCtx ns (c_mask t) 0) x)) as EQ.
  { intros x. cbn [sample_m]. fold F. rewrite validate_full; auto; [| |congruence|rewrite Lc; exact Hch].
    - rewrite bcast_full by assumption. now rewrite Hr.
    - right. left. now rewrite Lc. }
  assert (forall ns, outcome (choose_channels (sum_pick false ev ch co rr lg 0) 0 (c_ci t)) ns ->
    tfull ch (mkCtx ns (c_mask t) 0) /\
    forall f, (f < F)%nat -> nth f (c_mask t) false = true -> Q1 ch f (nth f ns 0%nat) <> 0) as Hns.
  { intros ns Ho. destruct (choose_outcome n _ _ (c_ci t) 0 ns Hpick Ho) as [Ln Hn]. rewrite Lc in *. split.
    - repeat split; cbn [c_ci c_mask c_rep]; auto. intros f Hf. apply Hn. exact Hf.
    - intros f Hf Hm E. destruct (Hn f Hf) as [H1 H2]. apply H2. cbn [plus].
      destruct (pick_eq ch co rr lg f _ Wf A Rf Ev Hf (Hch f Hf)) as [_ ->]; [|exact H1].
      unfold posterior. rewrite E. lra. }
  split.
  - intros y y' E. unfold Tset. cbn [out_shape features]. apply bprod_ext. intros f Hf.
    destruct (nth f (c_mask t) false) eqn:Em; [|reflexivity].
    unfold tst. apply lprod_ext. intros v Hv. rewrite E; [reflexivity|]. exists f. repeat split; auto.
  - intros x Hx. rewrite EQ. split.
    + intros Af HA.
      apply expects_bind with (u2 := fun ns => Af x * Rset ch (mkCtx ns (c_mask t) 0)).
      * pose proof (choose_expects n (sum_pick false ev ch co rr lg 0) (sp ch lg) (Af x)
          (fun f i => if nth f (c_mask t) false then Qh ch f i / Q1 ch f i else 1) (c_ci t) 0 Hpick) as CE.
        rewrite Lc in CE. unfold Rset at 1. cbn [c_mask c_ci]. fold F.
        match goal with |- expects _ _ ?g ?u => match type of CE with expects _ _ _ ?u' => replace u with u' end end; [exact CE|].
        f_equal. unfold Rset. cbn [out_shape features]. fold F. apply bprod_ext. intros f Hf. cbn [plus].
        destruct (pick_eq ch co rr lg f _ Wf A Rf Ev Hf (Hch f Hf)) as [_ Esp].
        pose proof (Q1_sum ch co rr lg f (nth f (c_ci t) 0%nat) Wf) as EQ1.
        assert (Q1 (MSum ch co rr lg) f (nth f (c_ci t) 0%nat) <> 0) as Nz.
        { destruct Ev as [[_ H]|[E H]].
          - apply H; [constructor|exact Logic.I|exact Hf|now apply Hch].
          - rewrite (evok_Q1 (MSum ch co rr lg)); [lra| | | |exact E|right; split; assumption|exact Hf|now apply Hch].
            + cbn. split; [assumption|lia].
            + exact A.
            + exact Rf. }
        destruct (nth f (c_mask t) false) eqn:Em.
        -- rewrite Qh_sum by assumption. unfold Rdiv at 2. rewrite <- bsum_scal_r. apply bsum_ext. intros i Hi.
           rewrite Esp by assumption. unfold posterior. rewrite <- EQ1.
           destruct (Req_EM_T (Q1 ch f i) 0) as [Z|NZ].
           ++ assert (Qh ch f i = 0) as ->.
              { apply Qh_zero; auto. apply pos0; auto. }
              rewrite Z. unfold Rdiv. ring.
           ++ field. split; assumption.
        -- erewrite bsum_ext; [|intros i Hi; rewrite Esp by assumption; rewrite Rmult_1_r; reflexivity].
           unfold posterior, n. rewrite bsum_div. rewrite <- EQ1. field. exact Nz.
      * intros ns Ho. destruct (Hns ns Ho) as [Tf HQ']. destruct (IH _ Tf HQ') as [_ IH2].
        destruct (IH2 x Hx) as [IH3 _]. apply IH3. exact HA.
    + intros y Hy v Hv. apply outcome_bind in Hy. destruct Hy as (ns & Ho & Hy).
      destruct (Hns ns Ho) as [Tf HQ']. destruct (IH _ Tf HQ') as [_ IH2]. destruct (IH2 x Hx) as [_ IH4].
      apply (IH4 y Hy). exact Hv.
Qed.

Lemma bprod_div n f g : (forall i, (i < n)%nat -> g i <> 0) -> bprod n (fun i => f i / g i) = bprod n f / bprod n g.
Proof.
  induction n as [|n IH]; intros H; cbn [bprod]; [field|].
  rewrite IH by auto. field. split; [apply H; lia|].
  clear IH. assert (forall i, (i < n)%nat -> g i <> 0) as H' by auto. clear H.
  induction n as [|n IHn]; cbn [bprod]; [lra|]. apply Rmult_integral_contrapositive. split; [apply IHn; auto|apply H'; lia].
Qed.

Lemma nth_repeat_lt {A} (a d : A) n i : (i < n)%nat -> nth i (repeat a n) d = a.
Proof. revert i. induction n as [|n IH]; intros i H; [lia|]. destruct i; [reflexivity|]. apply IH. lia. Qed.

Lemma concat_fts_NoDup m : wf m -> NoDup (concat (fts m)).
Proof.
  intros Wf. pose proof (wf_wf1 m Wf) as [_ HL _ HD HS _ _ _]. unfold nthq in *. rewrite <- HL in HD, HS.
  revert HD HS. generalize (fts m). intros ls. clear. induction ls as [|l ls IH]; intros HD HS; [constructor|].
  cbn [concat].
  assert (NoDup (concat ls)) as N2.
  { apply IH.
    - intros f g Hf Hg Hn. apply (HD (S f) (S g)); cbn; lia.
    - intros f Hf. apply (HS (S f)). cbn. lia. }
  assert (NoDup l) as N1 by (apply ssorted_NoDup; apply (HS 0%nat); cbn; lia).
  assert (forall v, In v l -> ~ In v (concat ls)) as Dj.
  { intros v Hv C. apply in_concat in C. destruct C as (x & Hx & Hv').
    apply In_nth with (d := []) in Hx. destruct Hx as (g & Hg & <-).
    apply (HD 0%nat (S g) ltac:(cbn; lia) ltac:(cbn; lia) ltac:(lia) v Hv Hv'). }
  clear - N1 N2 Dj. induction l as [|a l IHl]; [exact N2|]. inversion N1; subst. cbn. constructor.
  - rewrite in_app_iff. intros [C|C]; [contradiction|]. apply (Dj a); [now left|exact C].
  - apply IHl; [assumption|]. intros v Hv. apply Dj. now right.
Qed.

Lemma lprod_pjoin m f : wf m -> lprod (nthq (MProduct m) 0) f = bprod (features (out_shape m)) (fun i => lprod (nthq m i) f).
Proof.
  intros Wf. unfold nthq at 1. cbn [fts nth].
  rewrite <- (wf_len m (wf_wf1 m Wf)). unfold nthq. rewrite <- lprod_concat. apply lprod_perm.
  apply NoDup_Permutation.
  - assert (StronglySorted lt (pjoin (fts m))) as HS; [|now apply ssorted_NoDup].
    apply pjoin_sorted. apply Forall_forall. intros q Hq. apply In_nth with (d := []) in Hq.
    destruct Hq as (i & Hi & <-). apply (wf_sorted m (wf_wf1 m Wf)). now rewrite <- (wf_len m (wf_wf1 m Wf)).
  - now apply concat_fts_NoDup.
  - intros v. rewrite pjoin_In, in_concat. reflexivity.
Qed.

Lemma product_spec ch : wf ch -> aligned ch -> reps_fine (MProduct ch) -> sspec ch -> sspec (MProduct ch).
Proof.
  intros Wf A Rf IH t (Lc & Lm & Hr & Hch) HQ.
  destruct t as [ci mask r]. cbn [c_ci c_mask c_rep out_shape features channels] in *.
  destruct ci as [|c [|]]; try discriminate. destruct mask as [|b [|]]; try discriminate. subst r.
  specialize (Hch 0%nat ltac:(lia)). cbn [nth] in Hch.
  set (F := features (out_shape ch)) in *.
  pose proof (reps_pos (MProduct ch) Wf (proj1 Rf) (proj2 Rf)) as Rp. cbn [out_shape repetitions] in Rp.
  set (t1 := mkCtx (repeat c F) (repeat b F) 0).
  assert (forall x, sample_m false W ev (MProduct ch) (mkCtx [c] [b] 0) x = sample_m false W ev ch t1 x) as EQ.
  { intros x. cbn [sample_m]. fold F. rewrite validate_full; auto; [|now left| |lia].
    - unfold broadcast. cbn [c_ci length]. destruct (Nat.eqb_spec 1 F) as [E|E]; [|reflexivity].
      unfold t1. rewrite <- E. reflexivity.
    - cbn [c_ci length]. intros f Hf. assert (f = 0%nat) as -> by lia. exact Hch. }
  assert (tfull ch t1) as Tf.
  { unfold t1. repeat split; cbn [c_ci c_mask c_rep]; try apply repeat_length. intros f Hf. now rewrite nth_repeat_lt. }
  assert (b = true -> forall f, (f < F)%nat -> Q1 ch f c <> 0) as HQ1.
  { intros -> f Hf E. apply (HQ 0%nat ltac:(lia) eq_refl). cbn [nth]. unfold Q1. rewrite prob_pev, pev_product.
    apply bprod_zero with (i := f); [exact Hf|exact E]. }
  eapply spec_ext; [intros x; symmetry; apply EQ| | | |apply (IH t1 Tf)].
  - intros v. unfold Cset, t1. cbn [c_mask out_shape features]. fold F. split.
    + intros (f & Hf & Hm & Hin). rewrite nth_repeat_lt in Hm by assumption. exists 0%nat.
      split; [lia|]. split; [exact Hm|]. apply nthq_product; eauto.
    + intros (f & Hf & Hm & Hin). assert (f = 0%nat) as -> by lia. cbn [nth] in Hm.
      apply nthq_product in Hin; [|assumption]. destruct Hin as (f & Hf' & Hin). exists f. split; [exact Hf'|].
      split; [now rewrite nth_repeat_lt|assumption].
  - intros y. unfold Tset, t1. cbn [c_mask out_shape features]. fold F. cbn [bprod nth]. destruct b.
    + rewrite Rmult_1_l. unfold tst at 2. rewrite lprod_pjoin by assumption. apply bprod_ext. intros f Hf.
      now rewrite nth_repeat_lt.
    + rewrite Rmult_1_l. apply bprod_one. intros f Hf. now rewrite nth_repeat_lt.
  - unfold Rset, t1. cbn [c_mask c_ci out_shape features]. fold F. cbn [bprod nth]. destruct b.
    + rewrite Rmult_1_l. unfold Qh at 2. unfold Q1 at 2. rewrite prob_pev, !pev_product. fold F.
      rewrite <- bprod_div.
      * apply bprod_ext. intros f Hf. rewrite !nth_repeat_lt by assumption. reflexivity.
      * intros f Hf. apply (HQ1 eq_refl f Hf).
    + rewrite Rmult_1_l. apply bprod_one. intros f Hf. now rewrite nth_repeat_lt.
  - intros f Hf Hm. unfold t1 in Hm |- *. cbn [c_mask c_ci] in Hm |- *. rewrite nth_repeat_lt in Hm by exact Hf. rewrite nth_repeat_lt by exact Hf. now apply HQ1.
Qed.

(** *** Cat *)
Definition cat_sample (d2 : bool) (t : ctx) := fix go (l : list module) (off : nat) (x : row) : prog row :=
  match l with
  | [] => Ret x
  | c :: rest =>
      if child_ok d2 off (out_shape c) t
      then pbind (sample_m false W ev c (child_ctx d2 off (out_shape c) t) x)
                 (fun y => go rest (next_off d2 off (out_shape c)) y)
      else Raise
  end.

Lemma nth_firstn_lt {A} (l : list A) n i d : (i < n)%nat -> nth i (firstn n l) d = nth i l d.
Proof.
  revert n i. induction l as [|a l IH]; intros n i H; [now destruct n|].
  destruct n; [lia|]. destruct i; [reflexivity|]. cbn. apply IH. lia.
Qed.
Lemma nth_skipn_add {A} (l : list A) off i d : nth i (skipn off l) d = nth (off + i) l d.
Proof.
  revert l. induction off as [|off IH]; intros l; [reflexivity|].
  destruct l as [|a l]; [now destruct i|]. cbn. apply IH.
Qed.
Lemma nth_firstn_skipn {A} (l : list A) off n i d : (i < n)%nat -> nth i (firstn n (skipn off l)) d = nth (off + i) l d.
Proof. intros H. rewrite nth_firstn_lt by assumption. apply nth_skipn_add. Qed.

Lemma cat1_go_spec t : c_rep t = 0%nat -> length (c_mask t) = length (c_ci t) ->
  forall l off, Forall wf l -> Forall sspec l ->
  (off + nsum (map (fun c => features (out_shape c)) l) = length (c_ci t))%nat ->
  let F := nsum (map (fun c => features (out_shape c)) l) in
  (forall c f, In c l -> (f < F)%nat -> (nth (off + f) (c_ci t) 0 < channels (out_shape c))%nat) ->
  (forall f g, (f < F)%nat -> (g < F)%nat -> f <> g -> disjl (nthq (MCat false (mkScope [] []) l) f) (nthq (MCat false (mkScope [] []) l) g)) ->
  (forall f, (f < F)%nat -> nth (off + f) (c_mask t) false = true -> Q1 (MCat false (mkScope [] []) l) f (nth (off + f) (c_ci t) 0%nat) <> 0) ->
  spec (cat_sample false t l off)
    (fun v => exists f, (f < F)%nat /\ nth (off + f) (c_mask t) false = true /\ In v (nthq (MCat false (mkScope [] []) l) f))
    (fun y => bprod F (fun f => if nth (off + f) (c_mask t) false then tst (nthq (MCat false (mkScope [] []) l) f) y else 1))
    (bprod F (fun f => if nth (off + f) (c_mask t) false
       then Qh (MCat false (mkScope [] []) l) f (nth (off + f) (c_ci t) 0%nat) / Q1 (MCat false (mkScope [] []) l) f (nth (off + f) (c_ci t) 0%nat) else 1)).
Proof.
  intros Hrep HLm. set (es := mkScope [] []). induction l as [|m l IH]; intros off Wl Sl HL F Hch HD HQ.
  - subst F. eapply spec_ext; [| | |reflexivity|apply spec_skip].
    + reflexivity.
    + intros v. split; [tauto|]. intros (f & Hf & _). cbn in Hf. lia.
    + reflexivity.
  - inversion Wl as [|? ? Wm Wl']; subst. inversion Sl as [|? ? Sm Sl']; subst.
    cbn [map nsum] in HL. subst F. cbn [map nsum] in *.
    set (Fm := features (out_shape m)) in *. set (Fl := nsum (map (fun c => features (out_shape c)) l)) in *.
    pose proof (wf_len m (wf_wf1 m Wm)) as Lm'.
    assert (forall f, (f < Fm)%nat -> nthq (MCat false es (m :: l)) f = nthq m f) as N1.
    { intros f Hf. unfold nthq. cbn [fts map concat]. rewrite app_nth1; [reflexivity|]. unfold Fm in Hf. lia. }
    assert (forall f, nthq (MCat false es (m :: l)) (Fm + f) = nthq (MCat false es l) f) as N2.
    { intros f. unfold nthq. cbn [fts map concat]. rewrite app_nth2 by (unfold Fm; lia). f_equal. unfold Fm. lia. }
    assert (forall s f c, (f < Fm)%nat -> pev s (MCat false es (m :: l)) f c 0 = pev s m f c 0) as E1.
    { intros s f c Hf. unfold pev. cbn [evalm map catpick]. fold Fm.
      destruct (Nat.ltb_spec f Fm); [reflexivity|lia]. }
    assert (forall s f c, pev s (MCat false es (m :: l)) (Fm + f) c 0 = pev s (MCat false es l) f c 0) as E2.
    { intros s f c. unfold pev. cbn [evalm map catpick]. fold Fm.
      destruct (Nat.ltb_spec (Fm + f) Fm); [lia|]. do 2 f_equal. lia. }
    assert (tfull m (child_ctx false off (out_shape m) t)) as Tf.
    { unfold tfull, child_ctx, slice_range. cbn [c_ci c_mask c_rep]. fold Fm.
      rewrite !firstn_length, !skipn_length. repeat split; [lia|lia|assumption|].
      intros f Hf. rewrite nth_firstn_skipn by assumption. apply Hch; [now left|lia]. }
    assert (spec (sample_m false W ev m (child_ctx false off (out_shape m) t))
       (Cset m (c_mask (child_ctx false off (out_shape m) t))) (Tset m (c_mask (child_ctx false off (out_shape m) t)))
       (Rset m (child_ctx false off (out_shape m) t))) as S1.
    { apply Sm; [exact Tf|]. fold Fm. cbn [child_ctx slice_range c_mask c_ci]. fold Fm. intros f Hf.
      rewrite !nth_firstn_skipn by assumption. intros Hm. unfold Q1. rewrite prob_pev, <- E1 by assumption.
      apply (HQ f); [lia|exact Hm]. }
    specialize (IH (off + Fm)%nat Wl' Sl' ltac:(lia)). cbv zeta in IH. fold es Fl in IH.
    assert (forall x, cat_sample false t (m :: l) off x = pbind (sample_m false W ev m (child_ctx false off (out_shape m) t) x) (cat_sample false t l (off + Fm))) as EQ.
    { intros x. cbn [cat_sample]. unfold child_ok. fold Fm.
      destruct (Nat.leb_spec (off + Fm) (length (c_ci t))); [|lia]. reflexivity. }
    eapply spec_ext; [intros x; symmetry; apply EQ| | | |eapply spec_seq; [exact S1|apply IH|]].
    + intros v. unfold Cset. cbn [child_ctx slice_range c_mask]. fold Fm. split.
      * intros [(f & Hf & Hm & Hin)|(f & Hf & Hm & Hin)].
        -- rewrite nth_firstn_skipn in Hm by assumption. exists f. rewrite N1 by assumption. repeat split; auto. lia.
        -- exists (Fm + f)%nat. rewrite N2. rewrite Nat.add_assoc. repeat split; auto. lia.
      * intros (f & Hf & Hm & Hin). destruct (Nat.ltb_spec f Fm) as [Lt|Ge].
        -- left. exists f. rewrite nth_firstn_skipn by assumption. rewrite N1 in Hin by assumption. auto.
        -- right. exists (f - Fm)%nat. replace f with (Fm + (f - Fm))%nat in Hin, Hm by lia. rewrite N2 in Hin.
           rewrite Nat.add_assoc in Hm. repeat split; auto. lia.
    + intros y. unfold Tset. cbn [child_ctx slice_range c_mask]. fold Fm. rewrite bprod_app. f_equal.
      * apply bprod_ext. intros f Hf. rewrite nth_firstn_skipn, N1 by assumption. reflexivity.
      * apply bprod_ext. intros f Hf. rewrite N2, Nat.add_assoc. reflexivity.
    + unfold Rset. cbn [child_ctx slice_range c_mask c_ci]. fold Fm. rewrite bprod_app. f_equal.
      * apply bprod_ext. intros f Hf. rewrite !nth_firstn_skipn by assumption. unfold Qh, Q1.
        rewrite !prob_pev, !E1 by assumption. reflexivity.
      * apply bprod_ext. intros f Hf. unfold Qh, Q1. rewrite !prob_pev, !E2, Nat.add_assoc. reflexivity.
    + intros c f Hc Hf. rewrite <- Nat.add_assoc. apply Hch; [now right|lia].
    + intros f g Hf Hg Hn. rewrite <- !N2. apply HD; lia.
    + intros f Hf Hm. unfold Q1. rewrite prob_pev, <- E2. rewrite <- Nat.add_assoc in *. apply HQ; [lia|exact Hm].
    + intros v (f & Hf & Hm & Hin) (g & Hg & _ & Hin'). fold Fm in Hf. rewrite <- (N1 f) in Hin by assumption. rewrite <- (N2 g) in Hin'.
      apply (HD f (Fm + g)%nat ltac:(lia) ltac:(lia) ltac:(lia) v Hin Hin').
Qed.

Lemma nth_map_lt' {A B} (g : A -> B) l i d d' : (i < length l)%nat -> nth i (map g l) d = g (nth i l d').
Proof. intros H. rewrite nth_indep with (d' := g d') by now rewrite map_length. apply map_nth. Qed.

Lemma cat2_go_spec t F (q : nat -> list nat) : c_rep t = 0%nat -> length (c_ci t) = F -> length (c_mask t) = F ->
  (forall f g, (f < F)%nat -> (g < F)%nat -> f <> g -> disjl (q f) (q g)) ->
  forall l off, Forall wf l -> Forall sspec l ->
  (forall c, In c l -> features (out_shape c) = F /\ forall f, (f < F)%nat -> nthq c f = q f) ->
  (forall f, (f < F)%nat -> (nth f (c_ci t) 0 < off + nsum (map (fun c => channels (out_shape c)) l))%nat) ->
  (forall f, (f < F)%nat -> nth f (c_mask t) false = true -> (off <= nth f (c_ci t) 0)%nat ->
     Q1 (MCat true (mkScope [] []) l) f (nth f (c_ci t) 0%nat - off) <> 0) ->
  let on f := (nth f (c_mask t) false && Nat.leb off (nth f (c_ci t) 0%nat))%bool in
  spec (cat_sample true t l off)
    (fun v => exists f, (f < F)%nat /\ on f = true /\ In v (q f))
    (fun y => bprod F (fun f => if on f then tst (q f) y else 1))
    (bprod F (fun f => if on f
       then Qh (MCat true (mkScope [] []) l) f (nth f (c_ci t) 0%nat - off) / Q1 (MCat true (mkScope [] []) l) f (nth f (c_ci t) 0%nat - off) else 1)).
Proof.
  intros Hrep Lc Lm HD. set (es := mkScope [] []). induction l as [|m l IH]; intros off Wl Sl Hq Hch HQ on.
  - assert (forall f, (f < F)%nat -> on f = false) as Off.
    { intros f Hf. specialize (Hch f Hf). cbn in Hch. unfold on.
      destruct (Nat.leb_spec off (nth f (c_ci t) 0%nat)); [lia|apply andb_false_r]. }
    eapply spec_ext; [| | | |apply spec_skip].
    + reflexivity.
    + intros v. split; [tauto|]. intros (f & Hf & Ho & _). rewrite Off in Ho by assumption. discriminate.
    + intros y. symmetry. apply bprod_one. intros f Hf. now rewrite Off.
    + symmetry. apply bprod_one. intros f Hf. now rewrite Off.
  - inversion Wl as [|? ? Wm Wl']; subst. inversion Sl as [|? ? Sm Sl']; subst.
    cbn [map nsum] in Hch. set (n := channels (out_shape m)) in *.
    set (F := length (c_ci t)) in *.
    destruct (Hq m (or_introl eq_refl)) as [HF HN].
    pose proof (wf_cpos m (wf_wf1 m Wm)) as Cp. fold n in Cp.
    set (tm := route off n t).
    assert (forall f, (f < F)%nat -> nth f (c_ci tm) 0%nat = if in_range off n (nth f (c_ci t) 0%nat) then (nth f (c_ci t) 0 - off)%nat else 0%nat) as Eci.
    { intros f Hf. unfold tm, route. cbn [c_ci]. rewrite nth_map_lt' with (d' := 0%nat) by exact Hf. reflexivity. }
    assert (forall f, (f < F)%nat -> nth f (c_mask tm) false = (in_range off n (nth f (c_ci t) 0%nat) && nth f (c_mask t) false)%bool) as Emk.
    { intros f Hf. unfold tm, route. cbn [c_mask].
      rewrite nth_map_lt' with (d' := (0%nat, false)) by (rewrite combine_length; lia).
      rewrite combine_nth by lia. reflexivity. }
    assert (forall s f c, (c < n)%nat -> pev s (MCat true es (m :: l)) f c 0 = pev s m f c 0) as E1.
    { intros s f c Hc. unfold pev. cbn [evalm map catpick]. fold n.
      destruct (Nat.ltb_spec c n); [reflexivity|lia]. }
    assert (forall s f c, (n <= c)%nat -> pev s (MCat true es (m :: l)) f c 0 = pev s (MCat true es l) f (c - n) 0) as E2.
    { intros s f c Hc. unfold pev. cbn [evalm map catpick]. fold n.
      destruct (Nat.ltb_spec c n); [lia|reflexivity]. }
    assert (tfull m tm) as Tf.
    { unfold tfull. rewrite HF. split; [|split; [|split]].
      - unfold tm, route. cbn [c_ci]. now rewrite map_length.
      - unfold tm, route. cbn [c_mask]. rewrite map_length, combine_length. lia.
      - exact Hrep.
      - intros f Hf. rewrite Eci by assumption. fold n. unfold in_range.
        destruct (Nat.leb_spec off (nth f (c_ci t) 0%nat)), (Nat.ltb_spec (nth f (c_ci t) 0%nat) (off + n)); cbn; lia. }
    assert (spec (sample_m false W ev m tm) (Cset m (c_mask tm)) (Tset m (c_mask tm)) (Rset m tm)) as S1.
    { apply Sm; [exact Tf|]. rewrite HF. intros f Hf. rewrite Emk, Eci by assumption.
      intros Hm. apply andb_prop in Hm. destruct Hm as [Hi Hm]. rewrite Hi. unfold in_range in Hi.
      apply andb_prop in Hi. destruct Hi as [Hi1 Hi2]. apply Nat.leb_le in Hi1. apply Nat.ltb_lt in Hi2.
      unfold Q1. rewrite prob_pev, <- E1 by lia. apply HQ; auto. }
    specialize (IH (off + n)%nat Wl' Sl'). cbv zeta in IH. fold es in IH.
    set (on' := fun f => (nth f (c_mask t) false && Nat.leb (off + n) (nth f (c_ci t) 0%nat))%bool) in *.
    assert (forall f, (f < F)%nat -> nth f (c_mask tm) false = (on f && negb (on' f))%bool) as Emk2.
    { intros f Hf. rewrite Emk by assumption. unfold on, on', in_range.
      destruct (nth f (c_mask t) false), (Nat.leb_spec off (nth f (c_ci t) 0%nat)), (Nat.ltb_spec (nth f (c_ci t) 0%nat) (off + n)),
        (Nat.leb_spec (off + n) (nth f (c_ci t) 0%nat)); cbn; try reflexivity; lia. }
    assert (forall f, on' f = true -> on f = true) as Hoo.
    { intros f. unfold on, on'. rewrite !andb_true_iff, !Nat.leb_le. intros [? ?]. split; [assumption|lia]. }
    assert (forall x, cat_sample true t (m :: l) off x = pbind (sample_m false W ev m tm x) (cat_sample true t l (off + n))) as EQ.
    { intros x. cbn [cat_sample]. unfold child_ok. fold n.
      destruct (Nat.leb_spec 1 n); [|lia]. reflexivity. }
    eapply spec_ext; [intros x; symmetry; apply EQ| | | |eapply spec_seq; [exact S1|apply IH|]].
    + intros v. unfold Cset. rewrite HF. split.
      * intros [(f & Hf & Hm & Hin)|(f & Hf & Hm & Hin)].
        -- rewrite Emk2 in Hm by assumption. apply andb_prop in Hm. exists f. rewrite HN in Hin by assumption. tauto.
        -- exists f. auto.
      * intros (f & Hf & Hm & Hin). destruct (on' f) eqn:E'; [right; exists f; auto|left; exists f].
        rewrite Emk2, Hm, E', HN by assumption. auto.
    + intros y. unfold Tset. rewrite HF, <- bprod_mult. apply bprod_ext. intros f Hf. rewrite Emk2, HN by assumption.
      specialize (Hoo f). destruct (on f), (on' f); cbn; try ring. discriminate Hoo; reflexivity.
    + unfold Rset. rewrite HF, <- bprod_mult. apply bprod_ext. intros f Hf. rewrite Emk2, Eci by assumption.
      destruct (on' f) eqn:E'.
      * rewrite (Hoo f E'). cbn [negb andb]. unfold on' in E'. apply andb_prop in E'. destruct E' as [_ E']. apply Nat.leb_le in E'.
        unfold Qh, Q1. rewrite !prob_pev, !E2 by lia. replace (nth f (c_ci t) 0 - off - n)%nat with (nth f (c_ci t) 0 - (off + n))%nat by lia. ring.
      * rewrite andb_true_r. destruct (on f) eqn:Eo; [|ring].
        unfold on in Eo. apply andb_prop in Eo. destruct Eo as [Em Eo]. apply Nat.leb_le in Eo.
        unfold on' in E'. rewrite Em in E'. cbn in E'. apply Nat.leb_gt in E'.
        unfold in_range. rewrite (proj2 (Nat.leb_le _ _) Eo), (proj2 (Nat.ltb_lt _ _) E'). cbn [andb].
        unfold Qh, Q1. rewrite !prob_pev, !E1 by lia. ring.
    + intros c Hc. apply Hq. now right.
    + intros f Hf. rewrite <- Nat.add_assoc. now apply Hch.
    + intros f Hf Hm Ho. unfold Q1. rewrite prob_pev. replace (nth f (c_ci t) 0 - (off + n))%nat with (nth f (c_ci t) 0 - off - n)%nat by lia.
      rewrite <- E2 by lia. apply HQ; auto. lia.
    + intros v (f & Hf & Hm & Hin) (g & Hg & Hm' & Hin'). rewrite HF in Hf. rewrite HN in Hin by assumption.
      rewrite Emk2 in Hm by assumption. apply andb_prop in Hm. destruct Hm as [_ Hm]. apply negb_true_iff in Hm.
      assert (f <> g) as Hn by congruence. apply (HD f g Hf Hg Hn v Hin Hin').
Qed.
End Sampler.
