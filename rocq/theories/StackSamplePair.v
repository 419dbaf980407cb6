(** Sampling through linsum and einsum layers of a stack. *)
From Coq Require Import List Arith Bool Reals Lia Lra FunctionalExtensionality.
From Verif Require Import Base ScopeModel ScopeProofs CircuitModel CircuitSpec CircuitBasics CircuitEval Integral CircuitMarg CircuitProps
  SampleModel SampleSpec SampleExp SampleProofs EmModel SplitModel SplitProofs LayerModel LayerSpec LayerProofs FactorModel FactorProofs FactorTop
  StackModel StackSpec StackProofs StackDist StackTop StackRat StackPostModel StackSampleModel StackSampleStep.
Import ListNotations.
Local Open Scope R_scope.

Definition raw (n : nat) (g : nat -> nat * nat) (q : nat -> nat -> nat -> nat -> R)
    (ev : option ((nat -> nat -> nat -> lval) * (nat -> nat -> nat -> lval))) (f o r : nat) : prog (nat * nat) :=
  pbind (sample_logits false n (fun k =>
           match ev with
           | None => Fin (q f o r k)
           | Some (a, b) => ladd (Fin (q f o r k)) (ladd (a f (fst (g k)) r) (b f (snd (g k)) r))
           end))
        (fun k => Ret (g k)).
Lemma raw_none D n g q f o r p1 h : (0 < n)%nat -> (forall k, (k < n)%nat -> p1 k = 1) ->
  expects D (raw n g q None f o r) h (bsum n (fun k => softmax n (q f o r) k * p1 k / bsum n (fun j => softmax n (q f o r) j * p1 j) * h (g k))).
Proof. intros Hn H. apply (expects_bind_ret D _ g). exact (pick_one D n (q f o r) p1 (fun k => h (g k)) Hn H). Qed.
Lemma raw_some D n g q a b f o r p1 h : (0 < n)%nat -> (forall k, (k < n)%nat -> pr (a f (fst (g k)) r) * pr (b f (snd (g k)) r) = p1 k /\ 0 < p1 k) ->
  expects D (raw n g q (Some (a, b)) f o r) h (bsum n (fun k => softmax n (q f o r) k * p1 k / bsum n (fun j => softmax n (q f o r) j * p1 j) * h (g k))).
Proof.
  intros Hn H. apply (expects_bind_ret D _ g).
  apply (pick_ev D n (q f o r) (fun k => ladd (a f (fst (g k)) r) (b f (snd (g k)) r)) p1 (fun k => h (g k)) Hn).
  intros k Hk. rewrite pr_ladd. now apply H.
Qed.
Lemma raw_outcome n g q ev f o r p : outcome (raw n g q ev f o r) p -> exists k, (k < n)%nat /\ p = g k.
Proof.
  intros H. unfold raw in H. apply outcome_bind in H. destruct H as (k & Hk & H). apply logits_outcome in Hk. inversion H; subst. now exists k.
Qed.

Definition lin_n (lin : bool) (C : nat) : nat := if lin then C else (C * C)%nat.
Definition lin_g (lin : bool) (C k : nat) : nat * nat := if lin then (k, k) else unflat C k.
Definition lin_q (lin : bool) (C : nat) (llg : nat -> nat -> nat -> nat -> R) (elg : pair_logits) (f o r k : nat) : R :=
  if lin then llg f o r k else flat_logits C elg f o r k.
Lemma pick_raw (lin : bool) C llg elg ev f o r :
  (if lin then linsum_pick false C llg ev f o r else einsum_pick false C C elg ev f o r) = raw (lin_n lin C) (lin_g lin C) (lin_q lin C llg elg) ev f o r.
Proof. destruct lin; reflexivity. Qed.

Lemma halves_ok e s w P1 : holds e s P1 -> features s = (w * 2)%nat -> (0 < w)%nat -> exists a b, halves e = Ok (a, b) /\
  repetitions (t_sh (n_t a)) = repetitions s /\
  forall f i r, (f < w)%nat -> (i < channels s)%nat -> (r < repetitions s)%nat ->
    (n_nan a f i r || n_nan b f i r)%bool = false /\
    pr (t_ll (n_t a) f i r) = P1 (2 * f)%nat i r /\ pr (t_ll (n_t b) f i r) = P1 (2 * f + 1)%nat i r.
Proof.
  intros He EW Hw. unfold halves. rewrite (proj1 He), EW, (split2 Interleaved w ltac:(discriminate) Hw).
  eexists _, _. split; [reflexivity|]. split; [unfold take; cbn [n_t t_sh repetitions]; now rewrite (proj1 He)|].
  intros f i r Hf Hi Hr. unfold take. cbn [n_t t_ll n_nan]. rewrite !nth_map_seq by exact Hf.
  assert (IN : forall j, (j < 2)%nat -> in_shape s (in_feature Interleaved w 2 f j) i r).
  { intros j Hj. split; [|split; assumption]. rewrite EW. now apply in_feature_lt. }
  rewrite (holds_nan _ _ _ _ _ _ He (IN 0%nat ltac:(lia))), (holds_nan _ _ _ _ _ _ He (IN 1%nat ltac:(lia))).
  rewrite (holds_pr _ _ _ _ _ _ He (IN 0%nat ltac:(lia))), (holds_pr _ _ _ _ _ _ He (IN 1%nat ltac:(lia))).
  cbn [in_feature orb]. split; [reflexivity|]. split; f_equal; lia.
Qed.

Lemma step_two D l lin co llg elg ev s P1 w t :
  l_in l = s -> (0 < channels s)%nat -> (0 < w)%nat -> features s = (w * 2)%nat -> cached ev s P1 ->
  good (mkShape w co (repetitions s)) t ->
  let n := lin_n lin (channels s) in let g := lin_g lin (channels s) in let q := lin_q lin (channels s) llg elg in
  let V P f o r := bsum n (fun k => softmax n (q f o r) k * (P (2 * f)%nat (fst (g k)) r * P (2 * f + 1)%nat (snd (g k)) r)) in
  let p := pbind (of_result (match ev with None => Ok None | Some e => bind (halves e) (fun h => Ok (Some h)) end)) (fun hv =>
      pbind (picks (pair_pick false lin (channels s) co (repetitions s) llg elg hv (c_rep t)) 0 (c_ci t)) (pair_route l t)) in
  (forall t', outcome p t' -> good s t') /\
  forall Ph, expects D p (ratio (features s) Ph P1) (ratio w (V Ph) (V P1) t).
Proof.
  intros El HC Hw EW Hev G n g q V p.
  destruct (G) as (L & M & Hr & Hc). cbn [features channels repetitions] in L, M, Hr, Hc.
  assert (Hn : (0 < n)%nat) by (unfold n, lin_n; destruct lin; nia).
  assert (Hg : forall k, (k < n)%nat -> (fst (g k) < channels s)%nat /\ (snd (g k) < channels s)%nat).
  { intros k Hk. unfold n, g, lin_n, lin_g, unflat in *. destruct lin; cbn [fst snd]; [auto|].
    split; [apply Nat.div_lt_upper_bound; lia|apply Nat.mod_upper_bound; lia]. }
  assert (IN : forall f i, (f < w * 2)%nat -> (i < channels s)%nat -> in_shape s f i (c_rep t)) by (intros f i A B; split; [lia|split; assumption]).
  assert (X : exists hv, (match ev with None => Ok None | Some e => bind (halves e) (fun h => Ok (Some h)) end) = Ok hv /\
    (forall f, (f < w)%nat -> forall h, expects D (pair_pick false lin (channels s) co (repetitions s) llg elg hv (c_rep t) f (nth f (c_ci t) 0%nat)) h
     (bsum n (fun k => softmax n (q f (nth f (c_ci t) 0%nat) (c_rep t)) k * (P1 (2 * f)%nat (fst (g k)) (c_rep t) * P1 (2 * f + 1)%nat (snd (g k)) (c_rep t)) / V P1 f (nth f (c_ci t) 0%nat) (c_rep t) * h (g k)))) /\
    (forall f p', (f < w)%nat -> outcome (pair_pick false lin (channels s) co (repetitions s) llg elg hv (c_rep t) f (nth f (c_ci t) 0%nat)) p' -> exists k, (k < n)%nat /\ p' = g k)).
  { destruct ev as [e|]; cbn [cached] in Hev.
    - destruct (halves_ok e s w P1 Hev EW Hw) as (a & b & E & ER & Hab). rewrite E. cbn [bind]. eexists. split; [reflexivity|].
      assert (EP : forall f, (f < w)%nat -> pair_pick false lin (channels s) co (repetitions s) llg elg (Some (a, b)) (c_rep t) f (nth f (c_ci t) 0%nat) =
        raw n g q (Some (t_ll (n_t a), t_ll (n_t b))) f (nth f (c_ci t) 0%nat) (c_rep t)).
      { intros f Hf. unfold pair_pick. rewrite (proj2 (Nat.ltb_lt _ _) (Hc f Hf)), (proj2 (Nat.ltb_lt _ _) Hr). cbn [andb].
        rewrite ER, (proj2 (Nat.ltb_lt _ _) Hr), anyb_false; [apply pick_raw|]. intros i Hi. exact (proj1 (Hab f i _ Hf Hi Hr)). }
      split.
      + intros f Hf h. rewrite EP by exact Hf.
        apply (raw_some D n g q _ _ f _ _ (fun k => P1 (2 * f)%nat (fst (g k)) (c_rep t) * P1 (2 * f + 1)%nat (snd (g k)) (c_rep t)) h Hn).
        intros k Hk. destruct (Hg k Hk) as [G1 G2]. destruct (Hab f (fst (g k)) _ Hf G1 Hr) as (_ & -> & _). destruct (Hab f (snd (g k)) _ Hf G2 Hr) as (_ & _ & ->).
        split; [reflexivity|]. apply Rmult_lt_0_compat; eapply holds_pos; try exact Hev; apply IN; lia.
      + intros f p' Hf H. rewrite EP in H by exact Hf. now apply raw_outcome in H.
    - exists None. split; [reflexivity|].
      assert (EP : forall f, (f < w)%nat -> pair_pick false lin (channels s) co (repetitions s) llg elg None (c_rep t) f (nth f (c_ci t) 0%nat) =
        raw n g q None f (nth f (c_ci t) 0%nat) (c_rep t)).
      { intros f Hf. unfold pair_pick. rewrite (proj2 (Nat.ltb_lt _ _) (Hc f Hf)), (proj2 (Nat.ltb_lt _ _) Hr). apply pick_raw. }
      split.
      + intros f Hf h. rewrite EP by exact Hf.
        apply (raw_none D n g q f _ _ (fun k => P1 (2 * f)%nat (fst (g k)) (c_rep t) * P1 (2 * f + 1)%nat (snd (g k)) (c_rep t)) h Hn).
        intros k Hk. destruct (Hg k Hk) as [G1 G2]. rewrite !Hev by (apply IN; lia). lra.
      + intros f p' Hf H. rewrite EP in H by exact Hf. now apply raw_outcome in H. }
  destruct X as (hv & E & Hp & Ho). unfold p. rewrite E. cbn [of_result pbind].
  exact (step_pair D l ev s P1 w n g q (fun r => pair_pick false lin (channels s) co (repetitions s) llg elg hv r) t El HC Hn EW Hev L M Hr Hg Hp Ho).
Qed.

Lemma ratio_ext F Ph P1 Ph' P1' t : (forall f, (f < F)%nat -> Ph f (nth f (c_ci t) 0%nat) (c_rep t) = Ph' f (nth f (c_ci t) 0%nat) (c_rep t)) ->
  (forall f, (f < F)%nat -> P1 f (nth f (c_ci t) 0%nat) (c_rep t) = P1' f (nth f (c_ci t) 0%nat) (c_rep t)) -> ratio F Ph P1 t = ratio F Ph' P1' t.
Proof. intros H1 H2. unfold ratio, Wt. rewrite (bprod_ext F _ _ H1), (bprod_ext F _ _ H2). reflexivity. Qed.

Lemma step_lin D ev s P1 co nr lg so : decl (OLin co nr lg) s = Ok so -> fits (OLin co nr lg) s so -> cached ev s P1 ->
  so = semsh (OLin co nr lg) s -> steps D (mkLay (OLin co nr lg) s so) ev s P1.
Proof.
  intros Ed (HC & HR & <- & (w & Hw & EW)) Hev -> t G. clear Ed.
  assert (Dw : (features s / 2 = w)%nat) by (rewrite EW; apply Nat.div_mul; lia).
  cbn [l_out l_op l_in layer_route semsh features] in *. rewrite Dw in *.
  rewrite (enter_good (mkShape w co (repetitions s)) co (repetitions s) t w w G); auto.
  2:{ exact (proj1 (proj2 (proj2 G))). }
  2:{ pose proof (proj2 (proj2 (proj2 G)) 0%nat Hw). cbn [channels] in *. lia. }
  cbn [of_result pbind].
  destruct (step_two D (mkLay (OLin co (repetitions s) lg) s (mkShape w co (repetitions s))) true co lg (fun _ _ _ _ _ => 0) ev s P1 w t eq_refl HC Hw EW Hev G) as [A B].
  split; [exact A|]. intros Ph. exact (B Ph).
Qed.
Lemma step_ein D ev s P1 sc co nr lg so : decl (OEin sc co nr lg) s = Ok so -> fits (OEin sc co nr lg) s so -> cached ev s P1 ->
  so = semsh (OEin sc co nr lg) s -> steps D (mkLay (OEin sc co nr lg) s so) ev s P1.
Proof.
  intros Ed (HC & HR & <- & (w & Hw & EW)) Hev -> t G. clear Ed.
  assert (Dw : (features s / 2 = w)%nat) by (rewrite EW; apply Nat.div_mul; lia).
  cbn [l_out l_op l_in layer_route semsh features] in *. rewrite Dw in *.
  rewrite (enter_good (mkShape w co (repetitions s)) co (repetitions s) t w w G); auto.
  2:{ exact (proj1 (proj2 (proj2 G))). }
  2:{ pose proof (proj2 (proj2 (proj2 G)) 0%nat Hw). cbn [channels] in *. lia. }
  cbn [of_result pbind].
  destruct (step_two D (mkLay (OEin sc co (repetitions s) lg) s (mkShape w co (repetitions s))) false co (fun _ _ _ _ => 0) lg ev s P1 w t eq_refl HC Hw EW Hev G) as [A B].
  split; [exact A|]. intros Ph.
  assert (E : forall P f c r, sem (OEin sc co (repetitions s) lg) s P f c r =
    bsum (lin_n false (channels s)) (fun k => softmax (lin_n false (channels s)) (lin_q false (channels s) (fun _ _ _ _ => 0) lg f c r) k *
      (P (2 * f)%nat (fst (lin_g false (channels s) k)) r * P (2 * f + 1)%nat (snd (lin_g false (channels s) k)) r))).
  { intros P f c r. cbn [sem lin_n lin_g]. rewrite bsum_flat. apply bsum_ext. intros i Hi. apply bsum_ext. intros j Hj. unfold pair_weight, unflat. cbn [fst snd].
    rewrite Nat.div_add_l, (Nat.div_small j) by lia. rewrite Nat.add_0_r. rewrite (Nat.add_comm (i * _) j), Nat.mod_add, (Nat.mod_small j) by lia.
    rewrite (Nat.add_comm j). reflexivity. }
  erewrite (ratio_ext w _ _ _ _ t); [exact (B Ph)| |]; intros f Hf; cbn beta; apply E.
Qed.

(** *** any layer of a stack, in terms of actual shapes *)
Definition is_sum (o : op) : Prop := match o with OSum _ _ _ => True | _ => False end.
Definition mix1 (o : op) (s : shape) : Prop := match o with OMix _ _ _ => channels s = 1%nat \/ repetitions s = 1%nat | _ => True end.
Definition moves (D : nat -> domain) (l : layer) (ev : option nt) (s : shape) (P1 : nat -> nat -> nat -> R) : Prop :=
  forall t, good (semsh (l_op l) s) t ->
    (forall t', outcome (layer_route false l ev t) t' -> good s t') /\
    forall Ph, expects D (layer_route false l ev t) (ratio (features s) Ph P1)
      (ratio (features (semsh (l_op l) s)) (sem (l_op l) s Ph) (sem (l_op l) s P1) t).
Lemma good_more s s' t : good s t -> features s = features s' -> channels s = channels s' -> (repetitions s <= repetitions s')%nat -> good s' t.
Proof. intros (A & B & C & E) H1 H2 H3. unfold good. rewrite <- H1, <- H2. repeat split; auto. lia. Qed.
Lemma decl_sem o s so : decl o s = Ok so -> fits o s so -> (forall co nr lg, o <> OMix co nr lg) -> so = semsh o s.
Proof.
  intros Ed Hf Hm. destruct o as [outer k n|co nr lg|co nr lg|co nr lg|sc co nr lg|].
  - now destruct Hf as (_ & _ & _ & _ & _ & ->).
  - destruct Hf as (_ & _ & <-). cbn [decl semsh] in *. destruct (Nat.ltb co 1); [discriminate|]. now injection Ed as <-.
  - now destruct (Hm co nr lg).
  - destruct Hf as (_ & _ & <- & _). cbn [decl semsh] in *. repeat (destruct (Nat.ltb _ _); [discriminate|]; try (destruct (negb _); [discriminate|])). now injection Ed as <-.
  - destruct Hf as (_ & _ & <- & _). cbn [decl semsh] in *. repeat (destruct (Nat.ltb _ _); [discriminate|]; try (destruct (negb _); [discriminate|])). now injection Ed as <-.
  - cbn [decl semsh] in *. now injection Ed as <-.
Qed.
Lemma moves_sum D ev ds s P1 co nr lg so : decl (OSum co nr lg) ds = Ok so -> agree ds s -> fits (OSum co nr lg) s so -> cached ev s P1 ->
  moves D (mkLay (OSum co nr lg) ds so) ev s P1.
Proof.
  intros Ed [A1 A2] Hf Hev.
  assert (Es : decl (OSum co nr lg) s = Ok so) by (cbn [decl] in *; now rewrite <- A1).
  pose proof (step_sum D ev s P1 co nr lg so Es Hf Hev) as H.
  assert (Eso : so = semsh (OSum co nr lg) s) by (apply decl_sem; auto; discriminate). subst so.
  intros t G. specialize (H t G). unfold layer_route in *. cbn [l_op l_in l_out] in *. now rewrite A2.
Qed.
Lemma moves_ok D o ev ds s P1 so : decl o ds = Ok so -> agree ds s -> fits o s so -> mix_ok o s -> mix1 o s -> (0 < features s)%nat ->
  ds = s \/ is_sum o -> cached ev s P1 -> moves D (mkLay o ds so) ev s P1.
Proof.
  intros Ed Ag Hf Hm H1 HF Hor Hev.
  destruct o as [outer k n|co nr lg|co nr lg|co nr lg|sc co nr lg|]; [|apply moves_sum; assumption| | | |]; destruct Hor as [->|[]].
  - pose proof (step_prod D ev s P1 outer k n so Ed Hf Hev) as H. rewrite (decl_sem _ _ _ Ed Hf) in * by discriminate. exact H.
  - pose proof (step_mix D ev s P1 co nr lg so Ed Hf Hev Hm H1) as H. intros t G. cbn [l_op] in G.
    destruct Hf as (_ & HR & En & Ec). cbn [mix_ok] in Hm.
    assert (Es : so = mkShape (features s) co nr). { cbn [decl] in Ed. destruct (Nat.ltb co 1); [discriminate|]. destruct (negb _); [discriminate|]. now injection Ed as <-. }
    specialize (H t). cbn [l_out l_op] in *. subst so. cbn [semsh features] in *. apply H.
    refine (good_more _ _ _ G _ _ _); cbn [features channels repetitions]; auto; lia.
  - pose proof (decl_sem _ _ _ Ed Hf ltac:(discriminate)) as E. pose proof (step_lin D ev s P1 co nr lg so Ed Hf Hev E) as H. rewrite E in *. exact H.
  - pose proof (decl_sem _ _ _ Ed Hf ltac:(discriminate)) as E. pose proof (step_ein D ev s P1 sc co nr lg so Ed Hf Hev E) as H. rewrite E in *. exact H.
  - pose proof (step_all D ev s P1 so Ed (proj1 Hf) HF Hev) as H. rewrite (decl_sem _ _ _ Ed Hf) in * by discriminate. exact H.
Qed.

(** *** the whole stack *)
Inductive routes : list op -> shape -> shape -> Prop :=
| r_nil ds s : routes [] ds s
| r_cons o rest ds s ds' : decl o ds = Ok ds' -> agree ds s -> fits o s ds' -> mix_ok o s -> mix1 o s -> (0 < features s)%nat ->
    ds = s \/ is_sum o -> routes rest ds' (semsh o s) -> routes (o :: rest) ds s.
Lemma sem_one o s so P1 : fits o s so -> mix_ok o s -> (forall f c r, in_shape s f c r -> P1 f c r = 1) ->
  forall f c r, in_shape (semsh o s) f c r -> sem o s P1 f c r = 1.
Proof.
  intros (HC & HR & Hf) Hm H f c r (If & Ic & Ir).
  assert (S1 : forall n q p, (0 < n)%nat -> (forall i, (i < n)%nat -> p i = 1) -> bsum n (fun i => softmax n q i * p i) = 1).
  { intros n q p Hn Hp. rewrite <- (softmax_sum n q Hn). apply bsum_ext. intros i Hi. rewrite Hp by exact Hi. ring. }
  destruct o as [outer k n|co nr lg|co nr lg|co nr lg|sc co nr lg|]; cbn [semsh sem features channels repetitions] in *.
  - destruct Hf as (-> & Hk & (w & Hw & EW) & _). assert (Dw : (features s / 2 = w)%nat) by (rewrite EW; apply Nat.div_mul; lia).
    assert (IN : forall i a, (i < 2)%nat -> (a < channels s)%nat -> (f < w)%nat -> (r < repetitions s)%nat -> in_shape s (in_feature k w 2 f i) a r).
    { intros i a A B E1 E2. split; [|split; assumption]. rewrite EW. now apply in_feature_lt. }
    destruct outer; cbn [features channels repetitions] in *; rewrite Dw in *.
    + rewrite (H _ (c / channels s)%nat), (H _ (c mod channels s)%nat); [lra| |]; apply IN; try lia;
        [apply Nat.mod_upper_bound; lia|apply Nat.div_lt_upper_bound; lia].
    + rewrite !H; [lra| |]; apply IN; lia.
  - subst nr. apply S1; [exact HC|]. intros i Hi. apply H. repeat split; assumption.
  - destruct Hf as [<- ->]. apply S1; [exact HR|]. intros i Hi. apply H. repeat split; assumption.
  - destruct Hf as (<- & (w & Hw & EW)). rewrite EW, Nat.div_mul in If by lia.
    apply (S1 (channels s) (lg f c r) (fun i => P1 (2 * f)%nat i r * P1 (2 * f + 1)%nat i r)); [exact HC|]. intros i Hi. rewrite !H; [lra| |]; (split; [lia|split; assumption]).
  - destruct Hf as (<- & (w & Hw & EW)). rewrite EW, Nat.div_mul in If by lia.
    rewrite <- (pair_weight_sum (channels s) (channels s) lg f c r) by nia. apply bsum_ext. intros i Hi. apply bsum_ext. intros j Hj. rewrite !H; [ring| |]; (split; [lia|split; assumption]).
  - rewrite (bprod_ext _ _ (fun _ => 1)) by (intros g Hg; apply H; repeat split; assumption). apply bprod_one. reflexivity.
Qed.
Lemma down_ok D ops : forall ds s ls, routes ops ds s -> assemble ds ops = Ok ls -> forall ev P1 t, cached ev s P1 -> good (shs ops s) t ->
  (forall t', outcome (down false ls ev t) t' -> good s t') /\
  forall Ph, expects D (down false ls ev t) (ratio (features s) Ph P1) (ratio (features (shs ops s)) (sems ops s Ph) (sems ops s P1) t).
Proof.
  induction ops as [|o rest IH]; intros ds s ls HR Ea ev P1 t Hev G.
  - cbn [assemble] in Ea. injection Ea as <-. cbn [down shs sems] in *. split; [intros t' H; now inversion H; subst|]. intros Ph. reflexivity.
  - inversion HR as [|o' rest' ds_ s_ ds' Ed Ag Hf Hm H1 HF Hor HR']; subst. cbn [assemble] in Ea. rewrite Ed in Ea. cbn [bind] in Ea.
    destruct (assemble ds' rest) as [ls'|] eqn:Ea'; [|discriminate]. cbn [bind] in Ea. injection Ea as <-. cbn [shs sems] in *.
    pose proof (moves_ok D o ev ds s P1 ds' Ed Ag Hf Hm H1 HF Hor Hev) as Hmv.
    assert (X : exists ev', cached ev' (semsh o s) (sem o s P1) /\ down false (mkLay o ds ds' :: ls') ev t = pbind (down false ls' ev' t) (layer_route false (mkLay o ds ds') ev)).
    { destruct ev as [e|]; cbn [cached] in Hev.
      - destruct (run_ok (mkLay o ds ds') e s P1 Hev (proj1 Ag) (proj2 Ag) Hf) as (e' & Er & He'). exists (Some e'). split; [exact He'|]. cbn [down]. now rewrite Er.
      - exists None. split; [|reflexivity]. cbn [cached]. exact (sem_one o s ds' P1 Hf Hm Hev). }
    destruct X as (ev' & Hev' & ->). destruct (IH ds' (semsh o s) ls' HR' Ea' ev' (sem o s P1) t Hev' G) as [A B].
    split.
    + intros t' H. apply outcome_bind in H. destruct H as (u & Hu & H). exact (proj1 (Hmv u (A u Hu)) t' H).
    + intros Ph. eapply (expects_bind D _ _ _ (ratio (features (semsh o s)) (sem o s Ph) (sem o s P1))); [exact (B (sem o s Ph))|].
      intros u Hu. exact (proj2 (Hmv u (A u Hu)) Ph).
Qed.

(** below the mixing layer the declared shapes are the actual ones *)
Definition no_mix (ops : list op) : Prop := forall co nr lg, ~ In (OMix co nr lg) ops.
Lemma fits_features o s so : fits o s so -> (0 < features s)%nat -> (0 < features (semsh o s))%nat.
Proof.
  intros (_ & _ & Hf) HF. destruct o as [[] k n|co nr lg|co nr lg|co nr lg|sc co nr lg|]; cbn [semsh features]; auto.
  - destruct Hf as (_ & _ & (w & Hw & ->) & _). rewrite Nat.div_mul; lia.
  - destruct Hf as (_ & _ & (w & Hw & ->) & _). rewrite Nat.div_mul; lia.
  - destruct Hf as (_ & (w & Hw & ->)). rewrite Nat.div_mul; lia.
  - destruct Hf as (_ & (w & Hw & ->)). rewrite Nat.div_mul; lia.
Qed.
Lemma routes_plain ops s de : goods ops s s de -> no_mix ops -> (0 < features s)%nat ->
  routes ops s s /\ de = shs ops s /\ (0 < features (shs ops s))%nat /\ (forall rest, routes rest (shs ops s) (shs ops s) -> routes (ops ++ rest) s s).
Proof.
  intros G. remember s as ds eqn:E in G at 1. revert E.
  induction G as [ds s|o rest ds s ds' de Ed Ag Hf Hm Ag' G IH]; intros -> Hn HF.
  - split; [constructor|]. cbn [shs app]. repeat split; auto.
  - assert (No : forall co nr lg, o <> OMix co nr lg) by (intros co nr lg ->; apply (Hn co nr lg); now left).
    pose proof (decl_sem o s ds' Ed Hf No) as E.
    assert (H1 : mix1 o s) by (destruct o as [| |co nr lg| | |]; cbn [mix1]; auto; now destruct (No co nr lg)).
    destruct (IH E) as (A & B & C & X); [intros co nr lg Hin; apply (Hn co nr lg); now right|exact (fits_features o s ds' Hf HF)|].
    rewrite E in *. cbn [shs app]. split; [|split; [|split]]; auto.
    + econstructor; eauto.
    + intros rest' Hr. econstructor; eauto.
Qed.
