(** EM: from the inductive statement to the API-level one. *)
From Coq Require Import List Arith Bool Lia Lra.
From Verif Require Import Base ScopeModel CircuitModel CircuitBasics CircuitEval CircuitSpec CircuitProps EmModel EmProofs.
Import ListNotations.
Local Open Scope R_scope.

(** every leaf of [m] gives every row of the batch positive density *)
Definition leaves_positive (m : module) (x : nat -> row) (B : nat) : Prop :=
  forall l, node_of (MLeaf l) m -> forall b f c r, (b < B)%nat -> (f < length (query (l_scope l)))%nat ->
    (c < l_ch l)%nat -> (r < l_rep l)%nat -> leaf_score (x b) l f c r <> NInf.

(** sum over all entries of the leaf's tensor, weighted by [G] *)
Definition weighted_ll (l : leaf) (x : nat -> row) (B : nat) (G : grads) (sc : leaf) : R :=
  bsum B (fun b => bsum (length (query (l_scope l))) (fun f => bsum (l_ch l) (fun c => bsum (l_rep l) (fun r =>
    G b f c r * finval (leaf_score (x b) sc f c r))))).

(** the leaf update keeps the leaf's shape and scope, stays positive on the data
    and does not decrease the weighted log-likelihood it is meant to maximise *)
Definition leaf_update_ok (U : leaf -> grads -> leaf) (x : nat -> row) (B : nat) (l : leaf) : Prop :=
  forall G : grads, (forall b f c r, (b < B)%nat -> (f < length (query (l_scope l)))%nat ->
    (c < l_ch l)%nat -> (r < l_rep l)%nat -> 0 < G b f c r) ->
  l_scope (U l G) = l_scope l /\ l_ch (U l G) = l_ch l /\ l_rep (U l G) = l_rep l /\
  (forall b f c r, (b < B)%nat -> (f < length (query (l_scope l)))%nat -> (c < l_ch l)%nat -> (r < l_rep l)%nat ->
     leaf_score (x b) (U l G) f c r <> NInf) /\
  weighted_ll l x B G l <= weighted_ll l x B G (U l G).

Lemma ninf_pos v : v <> NInf -> 0 < pr v.
Proof. destruct v; [congruence|]. intros _. apply exp_pos. Qed.

Lemma leaves_ok_intro U x B m : leaves_positive m x B ->
  (forall l, node_of (MLeaf l) m -> leaf_update_ok U x B l) -> leaves_ok x B U m.
Proof.
  induction m as [l|ch co rr lg IH|d2 sc cs IH|ch IH] using module_ind'; intros HP HU; cbn [leaves_ok].
  - assert (allpos x B (MLeaf l)) as A.
    { intros b f c r Hb Hf Hc Hr. cbn in *. unfold loglik. cbn [evalm]. apply ninf_pos. apply (HP l); auto. constructor. }
    split; [exact A|]. intros G HG. destruct (HU l (node_refl _) G) as (E1 & E2 & E3 & P & Q); [exact HG|].
    assert (allpos x B (MLeaf (U l G))) as A'.
    { intros b f c r Hb Hf Hc Hr. cbn in Hf, Hc, Hr. rewrite E1 in Hf. rewrite E2 in Hc. rewrite E3 in Hr.
      unfold loglik. cbn [evalm]. apply ninf_pos. apply P; auto. }
    repeat split; auto.
    unfold gain. cbn [out_shape features channels ll_reps].
    assert (forall l', (forall b f c r, (b < B)%nat -> (f < length (query (l_scope l)))%nat -> (c < l_ch l)%nat -> (r < l_rep l)%nat -> 0 < pr (leaf_score (x b) l' f c r)) ->
      weighted_ll l x B G l' = tsum B (length (query (l_scope l))) (l_ch l) (l_rep l) (fun b f c r => G b f c r * ln (pr (leaf_score (x b) l' f c r)))) as E.
    { intros l' H'. unfold weighted_ll, tsum. apply bsum_ext; intros. apply bsum_ext; intros. apply bsum_ext; intros. apply bsum_ext; intros.
      rewrite finval_pos; auto. }
    rewrite (E l), (E (U l G)) in Q.
    + rewrite (tsum_ext _ _ _ _ _ (fun b f c r => G b f c r * ln (pr (leaf_score (x b) (U l G) f c r)) + (-1) * (G b f c r * ln (pr (leaf_score (x b) l f c r))))).
      2:{ intros. unfold loglik. cbn [evalm]. ring. }
      rewrite tsum_plus.
      assert (forall h, tsum B (length (query (l_scope l))) (l_ch l) (l_rep l) (fun b f c r => (-1) * h b f c r) = (-1) * tsum B (length (query (l_scope l))) (l_ch l) (l_rep l) h) as N.
      { intros h. unfold tsum. rewrite <- bsum_scal. apply bsum_ext; intros. rewrite <- bsum_scal. apply bsum_ext; intros. rewrite <- bsum_scal. apply bsum_ext; intros. apply bsum_scal. }
      rewrite (N (fun b f c r => G b f c r * ln (pr (leaf_score (x b) l f c r)))). lra.
    + intros. apply A'; cbn; rewrite ?E1, ?E2, ?E3; auto.
    + intros. apply A; auto.
  - apply IH.
    + intros l Hl. apply HP. now constructor.
    + intros l Hl. apply HU. now constructor.
  - rewrite Forall_forall in IH.
    assert (forall c, In c cs -> leaves_ok x B U c) as A.
    { intros c Hc. apply IH; [assumption| |].
      - intros l Hl. apply HP. now apply node_cat with c.
      - intros l Hl. apply HU. now apply node_cat with c. }
    clear - A. induction cs as [|c cs IH]; [exact I|]. split; [apply A; now left|]. apply IH. intros; apply A; now right.
  - apply IH.
    + intros l Hl. apply HP. now constructor.
    + intros l Hl. apply HU. now constructor.
Qed.

Lemma c15_gen U m x B m' s : built m -> ll_shape m = Ok s -> (0 < repetitions s)%nat -> (0 < B)%nat ->
  leaves_positive m x B -> (forall l, node_of (MLeaf l) m -> leaf_update_ok U x B l) ->
  em_update U m x B = Ok m' ->
  acc_ll m x B <= acc_ll m' x B /\ ll_shape m = Ok s /\
  (forall b f c r, (b < B)%nat -> (f < features s)%nat -> (c < channels s)%nat -> (r < repetitions s)%nat ->
     loglik m (x b) f c r <> NInf /\ loglik m' (x b) f c r <> NInf).
Proof.
  intros Bt Hs HR HB HP HU H. pose proof (built_wf _ Bt) as W. destruct (ll_shape_spec m s W Hs) as (F1 & F2 & F3).
  assert (good x B m m' (fun _ _ _ _ => 1)) as (ES & ER & AP & AP' & HG).
  { eapply em_main; eauto.
    - rewrite <- F3. assumption.
    - now apply leaves_ok_intro.
    - intros b f c r; intros; lra. }
  split; [|split; [assumption|]].
  - unfold gain in HG. unfold acc_ll. rewrite ES, ER.
    match goal with |- ?a <= ?b => enough (0 <= b + (-1) * a) by lra end.
    fold (tsum B (features (out_shape m)) (channels (out_shape m)) (ll_reps m) (fun b f c r => finval (loglik m (x b) f c r))).
    fold (tsum B (features (out_shape m)) (channels (out_shape m)) (ll_reps m) (fun b f c r => finval (loglik m' (x b) f c r))).
    assert (forall F C K h, tsum B F C K (fun b f c r => (-1) * h b f c r) = (-1) * tsum B F C K h) as N.
    { intros F C K h. unfold tsum. rewrite <- bsum_scal. apply bsum_ext; intros. rewrite <- bsum_scal. apply bsum_ext; intros. rewrite <- bsum_scal. apply bsum_ext; intros. apply bsum_scal. }
    rewrite <- (N _ _ _ (fun b f c r => finval (loglik m (x b) f c r))), <- tsum_plus.
    eapply Rle_trans; [exact HG|]. right. apply tsum_ext. intros b f c r Hb Hf Hc Hr.
    rewrite !finval_pos; [ring|apply AP; auto|apply AP'; rewrite ?ES, ?ER; auto].
  - intros b f c r Hb Hf Hc Hr. rewrite F1 in Hf. rewrite F2 in Hc. rewrite F3 in Hr. split; intros E.
    + pose proof (AP b f c r Hb Hf Hc Hr) as Q. rewrite E in Q. cbn in Q. lra.
    + pose proof (AP' b f c r) as Q. rewrite ES, ER in Q. specialize (Q Hb Hf Hc Hr). rewrite E in Q. cbn in Q. lra.
Qed.

Lemma c15 m x B m' s : built m -> ll_shape m = Ok s -> (0 < repetitions s)%nat -> (0 < B)%nat ->
  leaves_positive m x B -> em_update (fun l _ => l) m x B = Ok m' ->
  acc_ll m x B <= acc_ll m' x B /\
  (forall b f c r, (b < B)%nat -> (f < features s)%nat -> (c < channels s)%nat -> (r < repetitions s)%nat ->
     loglik m (x b) f c r <> NInf /\ loglik m' (x b) f c r <> NInf).
Proof.
  intros Bt Hs HR HB HP H. destruct (c15_gen (fun l _ => l) m x B m' s) as (A & _ & C); auto.
  intros l Hl G HG. split; [reflexivity|]. split; [reflexivity|]. split; [reflexivity|]. split; [now apply HP|apply Rle_refl].
Qed.

(** with equal repetitions everywhere the step does not raise *)
Lemma em_step_ok U m K : (forall l G, l_rep (U l G) = l_rep l) -> wf m -> uniform K m -> (0 < K)%nat -> forall x B G, exists m', em_step x B U m G = Ok m'.
Proof.
  intros HU. induction m as [l|ch co rr lg IH|d2 sc cs IH|ch IH] using module_ind'; intros W HK HP x B G.
  - eexists; reflexivity.
  - cbn in W, HK. destruct W as [W Hco]. destruct HK as [HK ->]. 
    destruct (IH W HK HP x B (sum_child_grads x ch co K lg G)) as (ch' & E).
    cbn [em_step]. destruct (uniform_ll ch K W HK) as [L Rp]. destruct (ll_shape_spec ch _ W L) as (_ & _ & F3).
    assert (ll_reps (MSum ch co K lg) = K) as ->.
    { cbn. rewrite <- F3, Rp. destruct (Nat.eqb_spec K 1); auto. }
    rewrite Nat.eqb_refl, E. cbn. eauto.
  - cbn [em_step]. fold (cat_loop x B U d2 G).
    assert (exists cs', cat_loop x B U d2 G 0 cs = Ok cs') as (cs' & ->); [|cbn; eauto].
    pose proof (wf_cat_children _ _ _ W) as Wc. clear W. generalize 0%nat.
    induction cs as [|c cs IHc]; intros off; [cbn; eauto|].
    inversion IH as [|? ? I1 I2]; subst. inversion Wc as [|? ? W1 W2]; subst. cbn in HK. destruct HK as [K1 K2].
    cbn [cat_loop]. edestruct (I1 W1 K1 HP x B) as (c' & ->). cbn [bind].
    edestruct (IHc I2 K2 W2) as (rest' & ->). cbn. eauto.
  - cbn in W, HK. destruct (IH W HK HP x B (fun b f c r => G b 0%nat c r)) as (ch' & E). cbn [em_step]. rewrite E. cbn. eauto.
Qed.
