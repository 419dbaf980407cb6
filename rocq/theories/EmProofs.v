(** EM monotonicity. *)
From Coq Require Import List Arith Bool Lia Lra.
From Verif Require Import Base ScopeModel CircuitModel CircuitBasics CircuitEval EmModel.
Import ListNotations.
Local Open Scope R_scope.

Lemma ln_le_sub1 y : 0 < y -> ln y <= y - 1.
Proof.
  intros H. pose proof (exp_ineq1_le (ln y)) as E. rewrite exp_ln in E by assumption. lra.
Qed.

(** Jensen for ln *)
Lemma jensen n a y : (forall i, (i < n)%nat -> 0 < a i) -> (forall i, (i < n)%nat -> 0 < y i) ->
  bsum n a = 1 -> bsum n (fun i => a i * ln (y i)) <= ln (bsum n (fun i => a i * y i)).
Proof.
  intros Ha Hy H1.
  destruct n as [|n]; [cbn in H1; lra|]. set (N := S n) in *.
  set (M := bsum N (fun i => a i * y i)).
  assert (0 < M) as HM by (apply bsum_pos; [unfold N; lia|]; intros; apply Rmult_lt_0_compat; auto).
  assert (bsum N (fun i => a i * ln (y i)) - ln M * bsum N a <= M / M - bsum N a) as E.
  { unfold M at 2. rewrite <- bsum_div. rewrite <- bsum_scal.
    assert (forall f g h k : nat -> R, (forall i, (i < N)%nat -> f i - g i <= h i - k i) -> bsum N f - bsum N g <= bsum N h - bsum N k) as C.
    { intros f g h k L. assert (bsum N (fun i => f i + k i) <= bsum N (fun i => h i + g i)) as Q.
      { apply bsum_le. intros i Hi. specialize (L i Hi). lra. }
      rewrite !bsum_plus in Q. lra. }
    apply C. intros i Hi.
    pose proof (Ha i Hi) as A. pose proof (Hy i Hi) as Y.
    assert (0 < y i / M) as P by (apply Rdiv_lt_0_compat; auto).
    pose proof (ln_le_sub1 _ P) as L. unfold Rdiv in L at 1. rewrite ln_mult, ln_Rinv in L by (auto; now apply Rinv_0_lt_compat).
    replace (a i * ln (y i) - ln M * a i) with (a i * (ln (y i) + - ln M)) by ring.
    replace (a i * y i / M - a i) with (a i * (y i / M - 1)) by (unfold Rdiv; ring).
    apply Rmult_le_compat_l; lra. }
  rewrite H1 in E. replace (M / M) with 1 in E by (field; lra). lra.
Qed.

(** Gibbs *)
Lemma gibbs n N w : (0 < n)%nat -> (forall i, (i < n)%nat -> 0 < N i) -> (forall i, (i < n)%nat -> 0 < w i) ->
  bsum n w = 1 -> 0 <= bsum n (fun i => N i * (ln (N i / bsum n N) - ln (w i))).
Proof.
  intros Hn HN Hw H1. set (S := bsum n N).
  assert (0 < S) as HS by (apply bsum_pos; auto).
  assert (bsum n (fun i => N i - w i * S) <= bsum n (fun i => N i * (ln (N i / S) - ln (w i)))) as E.
  { apply bsum_le. intros i Hi. pose proof (HN i Hi). pose proof (Hw i Hi).
    assert (0 < w i * S / N i) as P.
    { apply Rdiv_lt_0_compat; auto. apply Rmult_lt_0_compat; auto. }
    pose proof (ln_le_sub1 _ P) as L.
    assert (ln (w i * S / N i) = ln (w i) - ln (N i / S)) as E1.
    { unfold Rdiv. rewrite !ln_mult, !ln_Rinv; auto; try (apply Rinv_0_lt_compat; auto); try (apply Rmult_lt_0_compat; auto). ring. }
    rewrite E1 in L. replace (N i - w i * S) with (N i * - (w i * S / N i - 1)) by (field; lra).
    apply Rmult_le_compat_l; lra. }
  assert (bsum n (fun i => N i - w i * S) = 0) as Z.
  { rewrite <- (bsum_ext n (fun i => N i + (- S) * w i)) by (intros; ring). rewrite bsum_plus, bsum_scal, H1. fold S. ring. }
  lra.
Qed.

(** quadruple sums *)
Definition tsum (B F C K : nat) (h : nat -> nat -> nat -> nat -> R) : R :=
  bsum B (fun b => bsum F (fun f => bsum C (fun c => bsum K (fun r => h b f c r)))).

Lemma tsum_ext B F C K h g :
  (forall b f c r, (b < B)%nat -> (f < F)%nat -> (c < C)%nat -> (r < K)%nat -> h b f c r = g b f c r) ->
  tsum B F C K h = tsum B F C K g.
Proof. intros H. unfold tsum. repeat (apply bsum_ext; intros). auto. Qed.
Lemma tsum_le B F C K h g :
  (forall b f c r, (b < B)%nat -> (f < F)%nat -> (c < C)%nat -> (r < K)%nat -> h b f c r <= g b f c r) ->
  tsum B F C K h <= tsum B F C K g.
Proof. intros H. unfold tsum. repeat (apply bsum_le; intros). auto. Qed.
Lemma tsum_plus B F C K h g : tsum B F C K (fun b f c r => h b f c r + g b f c r) = tsum B F C K h + tsum B F C K g.
Proof.
  unfold tsum. rewrite <- bsum_plus. apply bsum_ext; intros. rewrite <- bsum_plus. apply bsum_ext; intros.
  rewrite <- bsum_plus. apply bsum_ext; intros. now rewrite bsum_plus.
Qed.
Lemma tsum_F B F1 F2 C K h :
  tsum B (F1 + F2) C K h = tsum B F1 C K h + tsum B F2 C K (fun b f => h b (F1 + f)%nat).
Proof. unfold tsum. rewrite <- bsum_plus. apply bsum_ext; intros. apply bsum_app. Qed.
Lemma tsum_C B F C1 C2 K h :
  tsum B F (C1 + C2) K h = tsum B F C1 K h + tsum B F C2 K (fun b f c => h b f (C1 + c)%nat).
Proof.
  unfold tsum. rewrite <- bsum_plus. apply bsum_ext; intros. rewrite <- bsum_plus. apply bsum_ext; intros.
  apply bsum_app.
Qed.

(** log values *)
Lemma pos_fin v : 0 < pr v -> v = Fin (ln (pr v)).
Proof. destruct v; cbn; intros H; [lra|]. now rewrite ln_exp. Qed.
Lemma finval_pos v : 0 < pr v -> finval v = ln (pr v).
Proof. intros H. rewrite (pos_fin v H) at 1. reflexivity. Qed.
Lemma pr_lsub a b : 0 < pr b -> pr (lsub a b) = pr a / pr b.
Proof.
  intros H. destruct a, b; cbn in *; try lra.
  unfold Rminus. now rewrite exp_plus, exp_Ropp.
Qed.

Lemma bsum_pos_ex n f : (exists i, (i < n)%nat /\ 0 < f i) -> (forall i, (i < n)%nat -> 0 <= f i) -> 0 < bsum n f.
Proof. intros (i & Hi & Hp) H. pose proof (bsum_term_le n f i Hi H). lra. Qed.

(** grouping the broadcast repetitions *)
Lemma bidx_group Kc K h D : (0 < Kc)%nat -> (Kc = 1 \/ Kc = K)%nat ->
  bsum K (fun r => h r * D (bidx Kc r)) = bsum Kc (fun r' => bsum K (fun r => if Nat.eqb (bidx Kc r) r' then h r else 0) * D r').
Proof.
  intros Hp HK.
  assert (forall r, (r < K)%nat -> (bidx Kc r < Kc)%nat) as Hb.
  { intros r Hr. apply bidx_lt; lia. }
  rewrite (bsum_ext Kc _ (fun r' => bsum K (fun r => if Nat.eqb (bidx Kc r) r' then h r * D r' else 0))).
  2:{ intros r' _. rewrite <- bsum_scal_r. apply bsum_ext. intros r _. destruct (Nat.eqb _ _); ring. }
  rewrite bsum_swap. apply bsum_ext. intros r Hr.
  rewrite (bsum_single Kc _ (bidx Kc r)); [now rewrite Nat.eqb_refl|now apply Hb|].
  intros i Hi Hn. destruct (Nat.eqb_spec (bidx Kc r) i); [congruence|reflexivity].
Qed.

Section Step.
Variables (x : nat -> row) (B : nat) (U : leaf -> grads -> leaf).
Hypothesis HB : (0 < B)%nat.

(** all values of the tensor are positive *)
Definition allpos (m : module) : Prop := forall b f c r, (b < B)%nat ->
  (f < features (out_shape m))%nat -> (c < channels (out_shape m))%nat -> (r < ll_reps m)%nat ->
  0 < pr (loglik m (x b) f c r).
Definition gpos (m : module) (G : grads) : Prop := forall b f c r, (b < B)%nat ->
  (f < features (out_shape m))%nat -> (c < channels (out_shape m))%nat -> (r < ll_reps m)%nat -> 0 < G b f c r.
Definition gain (m m' : module) (G : grads) : R :=
  tsum B (features (out_shape m)) (channels (out_shape m)) (ll_reps m)
    (fun b f c r => G b f c r * (ln (pr (loglik m' (x b) f c r)) - ln (pr (loglik m (x b) f c r)))).

(** what the leaf update must satisfy on leaf [l] *)
Definition leaf_ok_update (l : leaf) : Prop :=
  forall G, gpos (MLeaf l) G ->
  l_scope (U l G) = l_scope l /\ l_ch (U l G) = l_ch l /\ l_rep (U l G) = l_rep l /\
  allpos (MLeaf (U l G)) /\ 0 <= gain (MLeaf l) (MLeaf (U l G)) G.
Fixpoint leaves_ok (m : module) : Prop :=
  match m with
  | MLeaf l => allpos (MLeaf l) /\ leaf_ok_update l
  | MSum c _ _ _ => leaves_ok c
  | MCat _ _ cs => (fix go (l : list module) := match l with [] => True | c :: r => leaves_ok c /\ go r end) cs
  | MProduct c => leaves_ok c
  end.

Definition good (m m' : module) (G : grads) : Prop :=
  out_shape m' = out_shape m /\ ll_reps m' = ll_reps m /\ allpos m /\ allpos m' /\ 0 <= gain m m' G.

Lemma sum_step ch ch' co rr lg G : (0 < channels (out_shape ch))%nat -> (0 < co)%nat -> (0 < rr)%nat ->
  (0 < ll_reps ch)%nat ->
  ll_reps (MSum ch co rr lg) = rr -> gpos (MSum ch co rr lg) G ->
  good ch ch' (sum_child_grads x ch co rr lg G) ->
  allpos ch ->
  good (MSum ch co rr lg) (MSum ch' co rr (fun f i o r => finval (em_logits x B ch co rr lg G f i o r))) G.
Proof.
  intros Hci Hco Hrr Hrc Er HG (ES & ER & AP & AP' & HGain) _.
  set (I := channels (out_shape ch)) in *. set (F := features (out_shape ch)) in *.
  set (m := MSum ch co rr lg).
  set (lg' := fun f i o r => finval (em_logits x B ch co rr lg G f i o r)).
  set (m' := MSum ch' co rr lg').
  set (w := fun f i o r => softmax I (fun j => lg f j o r) i).
  set (p := fun b f i r => pr (loglik ch (x b) f i (bidx (ll_reps ch) r))).
  set (p' := fun b f i r => pr (loglik ch' (x b) f i (bidx (ll_reps ch) r))).
  set (P := fun b f o r => pr (loglik m (x b) f o r)).
  assert (forall r, (r < rr)%nat -> bidx rr r = r) as Hb.
  { intros r Hr. unfold bidx. destruct (Nat.eqb_spec rr 1); lia. }
  assert (ll_reps ch = 1 \/ ll_reps ch = rr)%nat as HK.
  { cbn in Er. destruct (Nat.eqb_spec (ll_reps ch) 1); auto. }
  assert (forall r, (r < rr)%nat -> (bidx (ll_reps ch) r < ll_reps ch)%nat) as Hbc.
  { intros r Hr. apply bidx_lt; lia. }
  assert (forall f i o r, 0 < w f i o r) as Hw by (intros; now apply softmax_pos).
  assert (forall b f i r, (b < B)%nat -> (f < F)%nat -> (i < I)%nat -> (r < rr)%nat -> 0 < p b f i r) as Hp by (intros; apply AP; auto).
  assert (forall b f i r, (b < B)%nat -> (f < F)%nat -> (i < I)%nat -> (r < rr)%nat -> 0 < p' b f i r) as Hp'.
  { intros; apply AP'; rewrite ?ES, ?ER; auto. }
  assert (forall b f o r, (r < rr)%nat -> P b f o r = bsum I (fun i => w f i o r * p b f i r)) as EP.
  { intros b f o r Hr. unfold P, m, loglik. fold (pev (leaf_score (x b)) (MSum ch co rr lg) f o r).
    rewrite pev_sum by assumption. rewrite Hb by assumption. reflexivity. }
  assert (forall b f o r, (b < B)%nat -> (f < F)%nat -> (r < rr)%nat -> 0 < P b f o r) as HP.
  { intros. rewrite EP by assumption. apply bsum_pos; [assumption|]. intros. apply Rmult_lt_0_compat; auto. }
  assert (forall b f i o r, (b < B)%nat -> (f < F)%nat -> (r < rr)%nat ->
     pr (resp x ch co rr lg b f i o r) = w f i o r * p b f i r / P b f o r) as Eres.
  { intros b f i o r Hb0 Hf Hr. unfold resp. rewrite pr_lsub by (apply HP; auto).
    rewrite pr_ladd. cbn [pr]. rewrite exp_log_softmax by assumption. rewrite Hb by assumption. reflexivity. }
  set (q := fun b f i o r => w f i o r * p b f i r / P b f o r).
  assert (forall b f i o r, (b < B)%nat -> (f < F)%nat -> (i < I)%nat -> (r < rr)%nat -> 0 < q b f i o r) as Hq.
  { intros. apply Rdiv_lt_0_compat; auto. apply Rmult_lt_0_compat; auto. }
  assert (forall b f o r, (b < B)%nat -> (f < F)%nat -> (r < rr)%nat -> bsum I (fun i => q b f i o r) = 1) as Hq1.
  { intros. unfold q. rewrite bsum_div, <- EP by assumption. field. apply Rgt_not_eq. now apply HP. }
  set (Nn := fun f i o r => bsum B (fun b => G b f o r * q b f i o r)).
  assert (forall f i o r, (f < F)%nat -> (i < I)%nat -> (o < co)%nat -> (r < rr)%nat -> 0 < Nn f i o r) as HN.
  { intros. apply bsum_pos; [assumption|]. intros. apply Rmult_lt_0_compat; auto. apply HG; auto. now rewrite Er. }
  assert (forall f i o r, (f < F)%nat -> (i < I)%nat -> (o < co)%nat -> (r < rr)%nat ->
    pr (log_expect x B ch co rr lg G f i o r) = Nn f i o r) as EN.
  { intros f i o r Hf Hi Ho Hr. unfold log_expect. rewrite pr_lse. apply bsum_ext. intros b Hb0.
    rewrite pr_ladd, pr_lfrom, Eres by (auto; left; apply HG; auto; now rewrite Er). reflexivity. }
  set (Sn := fun f o r => bsum I (fun i => Nn f i o r)).
  assert (forall f o r, (f < F)%nat -> (o < co)%nat -> (r < rr)%nat -> 0 < Sn f o r) as HS.
  { intros. apply bsum_pos; auto. }
  set (w' := fun f i o r => Nn f i o r / Sn f o r).
  assert (forall f i o r, (f < F)%nat -> (i < I)%nat -> (o < co)%nat -> (r < rr)%nat -> 0 < w' f i o r) as Hw'.
  { intros. apply Rdiv_lt_0_compat; auto. }
  assert (forall f i o r, (f < F)%nat -> (i < I)%nat -> (o < co)%nat -> (r < rr)%nat -> exp (lg' f i o r) = w' f i o r) as Elg.
  { intros f i o r Hf Hi Ho Hr. unfold lg'.
    assert (pr (em_logits x B ch co rr lg G f i o r) = w' f i o r) as E.
    { unfold em_logits. assert (pr (lse I (fun j => log_expect x B ch co rr lg G f j o r)) = Sn f o r) as E.
      { rewrite pr_lse. apply bsum_ext. auto. }
      rewrite pr_lsub; fold I; rewrite E; auto. rewrite EN; auto. }
    rewrite finval_pos by (rewrite E; auto). rewrite E, exp_ln; auto. }
  assert (forall f i o r, (f < F)%nat -> (i < I)%nat -> (o < co)%nat -> (r < rr)%nat -> softmax I (fun j => lg' f j o r) i = w' f i o r) as Ew'.
  { intros f i o r Hf Hi Ho Hr. unfold softmax. rewrite (bsum_ext I _ (fun j => w' f j o r)) by (intros; apply Elg; auto).
    rewrite Elg by auto. unfold w' at 2. rewrite bsum_div. fold (Sn f o r).
    pose proof (HS f o r Hf Ho Hr). replace (Sn f o r / Sn f o r) with 1 by (field; lra). unfold Rdiv. now rewrite Rinv_1, Rmult_1_r. }
  assert (forall b f o r, (b < B)%nat -> (f < F)%nat -> (o < co)%nat -> (r < rr)%nat ->
     pr (loglik m' (x b) f o r) = bsum I (fun i => w' f i o r * p' b f i r)) as EP'.
  { intros b f o r Hb0 Hf Ho Hr. unfold m', loglik. fold (pev (leaf_score (x b)) (MSum ch' co rr lg') f o r).
    rewrite pev_sum by (rewrite ES; assumption). rewrite ES, ER. fold I. apply bsum_ext. intros i Hi.
    rewrite Hb by assumption. rewrite Ew' by auto. reflexivity. }
  split; [|split; [|split; [|split]]].
  - unfold m', m. cbn. now rewrite ES.
  - unfold m', m. cbn. now rewrite ER.
  - intros b f c r Hb0 Hf Hc Hr. unfold m in Hr. rewrite Er in Hr. apply HP; auto.
  - intros b f c r Hb0 Hf Hc Hr. unfold m' in Hf, Hc, Hr. cbn in Hf, Hc, Hr. rewrite ES in Hf. rewrite ER in Hr.
    cbn in Er. rewrite Er in Hr. rewrite EP' by auto. apply bsum_pos; auto. intros. apply Rmult_lt_0_compat; auto.
  - unfold gain. fold m. replace (ll_reps m) with rr by (symmetry; exact Er). cbn [m out_shape features channels]. fold F.
    set (D := fun b f i r => ln (p' b f i r) - ln (p b f i r)).
    apply Rle_trans with (tsum B F co rr (fun b f o r => G b f o r * bsum I (fun i => q b f i o r * (ln (w' f i o r) - ln (w f i o r)))
        + G b f o r * bsum I (fun i => q b f i o r * D b f i r))).
    2:{ apply tsum_le. intros b f o r Hb0 Hf Ho Hr. rewrite <- Rmult_plus_distr_l, <- bsum_plus.
        apply Rmult_le_compat_l; [left; apply HG; auto; now rewrite Er|].
        fold m'. rewrite EP' by auto. fold (P b f o r).
        pose proof (jensen I (fun i => q b f i o r) (fun i => w' f i o r * p' b f i r / (w f i o r * p b f i r))) as J.
        cbv beta in J.
        eapply Rle_trans; [|eapply Rle_trans; [apply J|]].
        - right. apply bsum_ext. intros i Hi. unfold D, Rdiv.
          pose proof (Hw f i o r); pose proof (Hp b f i r Hb0 Hf Hi Hr); pose proof (Hp' b f i r Hb0 Hf Hi Hr); pose proof (Hw' f i o r Hf Hi Ho Hr).
          rewrite ln_mult, ln_Rinv, !ln_mult; auto; try ring; try (apply Rinv_0_lt_compat); now apply Rmult_lt_0_compat.
        - auto.
        - intros i Hi. apply Rdiv_lt_0_compat; apply Rmult_lt_0_compat; auto.
        - auto.
        - assert (0 < bsum I (fun i => w' f i o r * p' b f i r)) as HP2 by (apply bsum_pos; auto; intros; apply Rmult_lt_0_compat; auto).
          assert (0 < P b f o r) as HP1 by auto.
          rewrite (bsum_ext I _ (fun i => w' f i o r * p' b f i r / P b f o r)).
          + rewrite bsum_div. unfold Rdiv. rewrite ln_mult, ln_Rinv; auto; [lra|now apply Rinv_0_lt_compat].
          + intros i Hi. unfold q. pose proof (Hw f i o r); pose proof (Hp b f i r Hb0 Hf Hi Hr). field. repeat split; lra. }
    rewrite tsum_plus. apply Rplus_le_le_0_compat.
    + unfold tsum. rewrite bsum_swap. apply bsum_nonneg. intros f Hf.
      rewrite bsum_swap. apply bsum_nonneg. intros o Ho. rewrite bsum_swap. apply bsum_nonneg. intros r Hr.
      rewrite (bsum_ext B _ (fun b => bsum I (fun i => G b f o r * q b f i o r * (ln (w' f i o r) - ln (w f i o r))))).
      2:{ intros b _. rewrite <- bsum_scal. apply bsum_ext. intros; ring. }
      rewrite bsum_swap. rewrite (bsum_ext I _ (fun i => Nn f i o r * (ln (Nn f i o r / Sn f o r) - ln (w f i o r)))).
      2:{ intros i _. rewrite bsum_scal_r. reflexivity. }
      apply gibbs; auto. apply softmax_sum; assumption.
    + eapply Rle_trans; [exact HGain|]. right. unfold gain. fold I F. unfold tsum.
      apply bsum_ext. intros b Hb0. apply bsum_ext. intros f Hf.
      transitivity (bsum I (fun i => bsum rr (fun r => bsum co (fun o => G b f o r * q b f i o r) * D b f i r))).
      * apply bsum_ext. intros i Hi.
        pose proof (bidx_group (ll_reps ch) rr (fun r => bsum co (fun o => G b f o r * q b f i o r))
           (fun r' => ln (pr (loglik ch' (x b) f i r')) - ln (pr (loglik ch (x b) f i r'))) Hrc HK) as Eg.
        cbv beta in Eg. unfold D, p, p'. rewrite Eg. apply bsum_ext. intros r' _. f_equal. unfold sum_child_grads. fold m.
        replace (ll_reps m) with rr by (symmetry; exact Er).
        apply bsum_ext. intros r Hr. destruct (Nat.eqb _ _); [|reflexivity].
        apply bsum_ext. intros o _. now rewrite Eres.
      * rewrite (bsum_ext I _ (fun i => bsum co (fun o => bsum rr (fun r => G b f o r * q b f i o r * D b f i r)))).
        2:{ intros i _. rewrite bsum_swap. apply bsum_ext. intros r _. now rewrite <- bsum_scal_r. }
        rewrite bsum_swap. apply bsum_ext. intros o _. rewrite bsum_swap. apply bsum_ext. intros r _.
        rewrite <- bsum_scal. apply bsum_ext. intros. ring.
Qed.

Definition cat_loop (d2 : bool) (G : grads) := fix go (off : nat) (l : list module) : result (list module) :=
        match l with
        | [] => Ok []
        | c :: rest =>
            bind (em_step x B U c (fun b f k r => if d2 then G b f (off + k)%nat r else G b (off + f)%nat k r)) (fun c' =>
            bind (go (off + (if d2 then channels (out_shape c) else features (out_shape c)))%nat rest) (fun rest' =>
            Ok (c' :: rest')))
        end.

Lemma cat_step1 G cs : forall off cs' C K,
  cat_loop false G off cs = Ok cs' ->
  Forall (fun c => forall G c', em_step x B U c G = Ok c' -> gpos c G -> good c c' G) cs ->
  Forall (fun c => ll_reps c = K /\ channels (out_shape c) = C) cs ->
  (forall b f c r, (b < B)%nat -> (c < C)%nat -> (f < nsum (map (fun c => features (out_shape c)) cs))%nat -> (r < K)%nat -> 0 < G b (off + f)%nat c r) ->
  map out_shape cs' = map out_shape cs /\ map ll_reps cs' = map ll_reps cs /\
  (forall b f c r, (b < B)%nat -> (c < C)%nat -> (f < nsum (map (fun c => features (out_shape c)) cs))%nat -> (r < K)%nat ->
     0 < pr (catpick false (map (fun ch => (out_shape ch, loglik ch (x b))) cs) f c r) /\
     0 < pr (catpick false (map (fun ch => (out_shape ch, loglik ch (x b))) cs') f c r)) /\
  0 <= tsum B (nsum (map (fun c => features (out_shape c)) cs)) C K (fun b f c r => G b (off + f)%nat c r *
     (ln (pr (catpick false (map (fun ch => (out_shape ch, loglik ch (x b))) cs') f c r))
      - ln (pr (catpick false (map (fun ch => (out_shape ch, loglik ch (x b))) cs) f c r)))).
Proof.
  induction cs as [|c cs IH]; intros off cs' C K H HF HK HG.
  - injection H as <-. repeat split; auto; try (cbn in *; lia).
    right. symmetry. unfold tsum. cbn [map nsum]. apply bsum_zero. intros. reflexivity.
  - cbn [cat_loop] in H. 
    match type of H with bind ?a _ = _ => destruct a as [c'|] eqn:E1 end; [|discriminate]. cbn [bind] in H.
    match type of H with bind ?a _ = _ => destruct a as [rest|] eqn:E2 end; [|discriminate]. cbn [bind] in H.
    injection H as <-. inversion HF as [|? ? HF1 HF2]; subst. inversion HK as [|? ? [HK0 HKC] HK2]; subst.
    apply HF1 in E1.
    2:{ intros b f k r Hb Hf Hk Hr. apply HG; auto. cbn [map nsum]. lia. }
    destruct E1 as (S1 & R1 & P1 & P1' & G1).
    eapply IH in E2; [|eassumption|eassumption|].
    2:{ intros b f k r Hb Hf Hk Hr. rewrite <- Nat.add_assoc. apply HG; auto; cbn [map nsum]; lia. }
    destruct E2 as (S2 & R2 & P2 & G2).
    split; [cbn [map]; congruence|]. split; [cbn [map]; congruence|].
    cbn [map nsum catpick] in *. rewrite S1. split.
    + intros b f k r Hb Hf Hk Hr.
      destruct (Nat.ltb_spec f (features (out_shape c))) as [L|L].
      * split; [apply P1|apply P1']; rewrite ?S1, ?R1; auto.
      * apply P2; auto; lia.
    + rewrite tsum_F. apply Rplus_le_le_0_compat.
      * eapply Rle_trans; [exact G1|]. right. unfold gain. apply tsum_ext. intros b f k r Hb Hf Hk Hr.
        destruct (Nat.ltb_spec f (features (out_shape c))) as [L|L]; [reflexivity|lia].
      * eapply Rle_trans; [exact G2|]. right. apply tsum_ext. intros b f k r Hb Hf Hk Hr.
        rewrite Nat.add_assoc.
        destruct (Nat.ltb_spec (features (out_shape c) + f) (features (out_shape c))) as [L|L]; [lia|].
        replace (features (out_shape c) + f - features (out_shape c))%nat with f by lia. reflexivity.
Qed.

Lemma cat_step2 G cs : forall off cs' C K,
  cat_loop true G off cs = Ok cs' ->
  Forall (fun c => forall G c', em_step x B U c G = Ok c' -> gpos c G -> good c c' G) cs ->
  Forall (fun c => ll_reps c = K /\ features (out_shape c) = C) cs ->
  (forall b f c r, (b < B)%nat -> (f < C)%nat -> (c < nsum (map (fun c => channels (out_shape c)) cs))%nat -> (r < K)%nat -> 0 < G b f (off + c)%nat r) ->
  map out_shape cs' = map out_shape cs /\ map ll_reps cs' = map ll_reps cs /\
  (forall b f c r, (b < B)%nat -> (f < C)%nat -> (c < nsum (map (fun c => channels (out_shape c)) cs))%nat -> (r < K)%nat ->
     0 < pr (catpick true (map (fun ch => (out_shape ch, loglik ch (x b))) cs) f c r) /\
     0 < pr (catpick true (map (fun ch => (out_shape ch, loglik ch (x b))) cs') f c r)) /\
  0 <= tsum B C (nsum (map (fun c => channels (out_shape c)) cs)) K (fun b f c r => G b f (off + c)%nat r *
     (ln (pr (catpick true (map (fun ch => (out_shape ch, loglik ch (x b))) cs') f c r))
      - ln (pr (catpick true (map (fun ch => (out_shape ch, loglik ch (x b))) cs) f c r)))).
Proof.
  induction cs as [|c cs IH]; intros off cs' C K H HF HK HG.
  - injection H as <-. repeat split; auto; try (cbn in *; lia).
    right. symmetry. unfold tsum. cbn [map nsum]. apply bsum_zero. intros. apply bsum_zero. intros. reflexivity.
  - cbn [cat_loop] in H. 
    match type of H with bind ?a _ = _ => destruct a as [c'|] eqn:E1 end; [|discriminate]. cbn [bind] in H.
    match type of H with bind ?a _ = _ => destruct a as [rest|] eqn:E2 end; [|discriminate]. cbn [bind] in H.
    injection H as <-. inversion HF as [|? ? HF1 HF2]; subst. inversion HK as [|? ? [HK0 HKC] HK2]; subst.
    apply HF1 in E1.
    2:{ intros b f k r Hb Hf Hk Hr. apply HG; auto. cbn [map nsum]. lia. }
    destruct E1 as (S1 & R1 & P1 & P1' & G1).
    eapply IH in E2; [|eassumption|eassumption|].
    2:{ intros b f k r Hb Hf Hk Hr. rewrite <- Nat.add_assoc. apply HG; auto; cbn [map nsum]; lia. }
    destruct E2 as (S2 & R2 & P2 & G2).
    split; [cbn [map]; congruence|]. split; [cbn [map]; congruence|].
    cbn [map nsum catpick] in *. rewrite S1. split.
    + intros b f k r Hb Hf Hk Hr.
      destruct (Nat.ltb_spec k (channels (out_shape c))) as [L|L].
      * split; [apply P1|apply P1']; rewrite ?S1, ?R1; auto.
      * apply P2; auto; lia.
    + rewrite tsum_C. apply Rplus_le_le_0_compat.
      * eapply Rle_trans; [exact G1|]. right. unfold gain. apply tsum_ext. intros b f k r Hb Hf Hk Hr.
        destruct (Nat.ltb_spec k (channels (out_shape c))) as [L|L]; [reflexivity|lia].
      * eapply Rle_trans; [exact G2|]. right. apply tsum_ext. intros b f k r Hb Hf Hk Hr.
        rewrite Nat.add_assoc.
        destruct (Nat.ltb_spec (channels (out_shape c) + k) (channels (out_shape c))) as [L|L]; [lia|].
        replace (channels (out_shape c) + k - channels (out_shape c))%nat with k by lia. reflexivity.
Qed.

Lemma ln_bprod n f : (forall i, (i < n)%nat -> 0 < f i) -> 0 < bprod n f /\ ln (bprod n f) = bsum n (fun i => ln (f i)).
Proof.
  induction n as [|n IH]; intros H; cbn.
  - split; [lra|apply ln_1].
  - destruct IH as [I1 I2]; [auto|]. assert (0 < f n) by auto. split; [now apply Rmult_lt_0_compat|].
    rewrite ln_mult, I2; auto.
Qed.

Lemma hd_map_in {A C} (g : A -> C) d l a : In a l -> (forall u v, In u l -> In v l -> g u = g v) -> g a = hd d (map g l).
Proof. destruct l as [|u l]; [intros []|]. cbn. intros Hi H. apply H; [assumption|now left]. Qed.

Lemma em_main m : wf m -> (exists s, ll_shape m = Ok s) -> (0 < ll_reps m)%nat -> leaves_ok m ->
  forall G m', em_step x B U m G = Ok m' -> gpos m G -> good m m' G.
Proof.
  induction m as [l|ch co rr lg IH|d2 sc cs IH|ch IH] using module_ind'; intros W (s & Hs) HR HL G m' H HG.
  - cbn in H. injection H as <-. cbn in HL. destruct HL as [A L]. destruct (L G HG) as (E1 & E2 & E3 & P & Q).
    split; [cbn; congruence|]. split; [cbn; congruence|]. auto.
  - cbn [em_step] in H. destruct (Nat.eqb_spec (ll_reps (MSum ch co rr lg)) rr) as [Er|Er]; [|discriminate].
    destruct (em_step x B U ch (sum_child_grads x ch co rr lg G)) as [ch'|] eqn:E; [|discriminate]. cbn [bind] in H. injection H as <-.
    cbn in W, HL. destruct W as [W Hco]. pose proof (wf_cpos _ (wf_wf1 _ W)) as Hcp.
    assert (0 < ll_reps ch)%nat as Hrc.
    { cbn in HR. destruct (Nat.eqb_spec (ll_reps ch) 1); lia. }
    assert (allpos ch) as AP.
    { (* needs only that the child's step is good for some gradients; take the actual ones below *)
      clear - IH W Hs Hrc HL E HB Hco Hcp HR HG.
      assert (exists G0, gpos ch G0) as [G0 HG0] by (exists (fun _ _ _ _ => 1); intros b f c r; intros; lra).
      clear HG0 G0. 
      revert Hs. intros Hs. apply ll_shape_sum in Hs. clear - W Hs Hrc HL HB.
      revert W Hs Hrc HL. induction ch as [l|ch0 co rr lg IH|d2 sc cs IH|ch0 IH] using module_ind'; intros W (s & Hs) HR HL.
      - apply HL.
      - cbn in W, HL. destruct W as [W Hco]. pose proof (wf_cpos _ (wf_wf1 _ W)) as Hcp.
        assert (0 < ll_reps ch0)%nat as Hrc by (cbn in HR; destruct (Nat.eqb_spec (ll_reps ch0) 1); lia).
        specialize (IH W (ll_shape_sum _ _ _ _ _ Hs) Hrc HL).
        intros b f c r Hb Hf Hc Hr. unfold loglik. fold (pev (leaf_score (x b)) (MSum ch0 co rr lg) f c r). rewrite pev_sum by assumption.
        apply bsum_pos; [assumption|]. intros i Hi. apply Rmult_lt_0_compat; [now apply softmax_pos|].
        apply IH; auto. apply bidx_lt; auto. cbn in Hr. destruct (Nat.eqb_spec (ll_reps ch0) 1); auto.
      - pose proof (wf_cat_children _ _ _ W) as Wc. pose proof (ll_shape_cat _ _ _ _ Wc Hs) as Hch.
        assert (forall c, In c cs -> leaves_ok c) as HLc.
        { clear - HL. cbn in HL. induction cs as [|c cs IH]; [intros c []|]. destruct HL as [H1 H2]. intros a [<-|Ha]; auto. }
        rewrite Forall_forall in IH, Wc.
        intros b f c r Hb Hf Hc Hr. unfold loglik. fold (pev (leaf_score (x b)) (MCat d2 sc cs) f c r).
        destruct d2.
        + rewrite out_shape_cat2 in Hc. apply cat2_locate in Hc. destruct Hc as (pre & c1 & post & k & E & Hk & ->). subst cs.
          assert (In c1 (pre ++ c1 :: post)) as Hin by apply in_elt. destruct (Hch c1 Hin) as [S1 S2].
          rewrite pev_cat2 by assumption. apply IH; auto; try (rewrite S2; auto).
          pose proof W as W'. cbn in W'. destruct W' as (_ & _ & HF & _). rewrite Forall_forall in HF.
          rewrite (HF c1 Hin). destruct pre; exact Hf.
        + rewrite out_shape_cat1 in Hf. apply cat1_locate in Hf. destruct Hf as (pre & c1 & post & k & E & Hk & ->). subst cs.
          assert (In c1 (pre ++ c1 :: post)) as Hin by apply in_elt. destruct (Hch c1 Hin) as [S1 S2].
          rewrite pev_cat1 by assumption. apply IH; auto; try (rewrite S2; auto).
          pose proof W as W'. cbn in W'. destruct W' as (_ & _ & HF & _). rewrite Forall_forall in HF.
          rewrite (HF c1 Hin). destruct pre; exact Hc.
      - cbn in W, HL. specialize (IH W (ll_shape_product _ _ Hs) HR HL).
        intros b f c r Hb Hf Hc Hr. unfold loglik. fold (pev (leaf_score (x b)) (MProduct ch0) f c r). rewrite pev_product.
        apply ln_bprod. intros i Hi. apply IH; auto. }
    apply sum_step; auto; try lia.
    apply IH; auto; [eapply ll_shape_sum; eauto|].
    (* gradients of the input are positive *)
    intros b f i r' Hb Hf Hi Hr'. unfold sum_child_grads. rewrite Er.
    assert (forall r o, (r < rr)%nat -> (o < co)%nat -> 0 < G b f o r * pr (resp x ch co rr lg b f i o r)) as Hp.
    { intros r o Hr Ho. apply Rmult_lt_0_compat; [apply HG; auto; now rewrite Er|].
      assert (bidx (ll_reps ch) r < ll_reps ch)%nat as Hbr.
      { apply bidx_lt; auto. cbn in Er. destruct (Nat.eqb_spec (ll_reps ch) 1); lia. }
      assert (0 < pr (loglik (MSum ch co rr lg) (x b) f o r)) as HP.
      { unfold loglik. fold (pev (leaf_score (x b)) (MSum ch co rr lg) f o r). rewrite pev_sum by assumption.
        apply bsum_pos; [assumption|]. intros j Hj. apply Rmult_lt_0_compat; [now apply softmax_pos|]. apply AP; auto. }
      unfold resp. rewrite pr_lsub by assumption. apply Rdiv_lt_0_compat; [|assumption].
      rewrite pr_ladd. apply Rmult_lt_0_compat; [apply exp_pos|]. apply AP; auto. }
    assert (exists r, (r < rr)%nat /\ bidx (ll_reps ch) r = r') as (r0 & Hr0 & Er0).
    { cbn in Er, HR. unfold bidx. destruct (Nat.eqb_spec (ll_reps ch) 1).
      - exists 0%nat. split; lia.
      - exists r'. split; lia. }
    apply bsum_pos_ex.
    + exists r0. split; [assumption|]. rewrite Er0, Nat.eqb_refl. apply bsum_pos; auto.
    + intros r Hr. destruct (Nat.eqb _ _); [|lra]. apply bsum_nonneg. intros o Ho. left. auto.
  - pose proof (wf_cat_children _ _ _ W) as Wc. pose proof (ll_shape_cat _ _ _ _ Wc Hs) as Hch.
    assert (forall c, In c cs -> leaves_ok c) as HLc.
    { clear - HL. cbn in HL. induction cs as [|c cs IH]; [intros c []|]. destruct HL as [H1 H2]. intros a [<-|Ha]; auto. }
    cbn [em_step] in H. fold (cat_loop d2 G) in H.
    destruct (cat_loop d2 G 0 cs) as [cs'|] eqn:E; [|discriminate]. cbn [bind] in H. injection H as <-.
    rewrite Forall_forall in IH, Wc.
    assert (Forall (fun c => forall G c', em_step x B U c G = Ok c' -> gpos c G -> good c c' G) cs) as HF.
    { apply Forall_forall. intros c Hc G0 c' E0 HG0. destruct (Hch c Hc) as [S1 S2]. apply IH; auto; rewrite S2; auto. }
    pose proof W as W'. cbn in W'. destruct W' as (Hne & _ & W').
    destruct d2.
    + eapply cat_step2 with (C := features (out_shape (MCat true sc cs))) (K := ll_reps (MCat true sc cs)) in E; auto.
      2:{ destruct W' as (HFe & _). rewrite Forall_forall in *. intros c Hc. split; [apply Hch, Hc|].
          rewrite (HFe c Hc). destruct cs; [congruence|reflexivity]. }
      2:{ intros b f c r Hb Hf Hc Hr. cbn [Nat.add]. apply HG; auto. now rewrite out_shape_cat2. }
      destruct E as (S1 & R1 & P1 & G1).
      split; [cbn; now rewrite S1|]. split; [cbn; now rewrite R1|].
      split; [|split].
      * intros b f c r Hb Hf Hc Hr. unfold loglik. cbn [evalm]. apply P1; auto. now rewrite out_shape_cat2 in Hc.
      * intros b f c r Hb Hf Hc Hr. unfold loglik. cbn [evalm]. apply P1; auto.
        -- cbn in Hf |- *. now rewrite S1 in Hf.
        -- cbn in Hc. rewrite S1 in Hc. now rewrite map_map in Hc.
        -- cbn in Hr |- *. now rewrite R1 in Hr.
      * eapply Rle_trans; [exact G1|]. right. unfold gain. rewrite out_shape_cat2. reflexivity.
    + eapply cat_step1 with (C := channels (out_shape (MCat false sc cs))) (K := ll_reps (MCat false sc cs)) in E; auto.
      2:{ destruct W' as (HFe & _). rewrite Forall_forall in *. intros c Hc. split; [apply Hch, Hc|].
          rewrite (HFe c Hc). destruct cs; [congruence|reflexivity]. }
      2:{ intros b f c r Hb Hc Hf Hr. cbn [Nat.add]. apply HG; auto. now rewrite out_shape_cat1. }
      destruct E as (S1 & R1 & P1 & G1).
      split; [cbn; now rewrite S1|]. split; [cbn; now rewrite R1|].
      split; [|split].
      * intros b f c r Hb Hf Hc Hr. unfold loglik. cbn [evalm]. apply P1; auto. now rewrite out_shape_cat1 in Hf.
      * intros b f c r Hb Hf Hc Hr. unfold loglik. cbn [evalm]. apply P1; auto.
        -- cbn in Hc |- *. now rewrite S1 in Hc.
        -- cbn in Hf. rewrite S1 in Hf. now rewrite map_map in Hf.
        -- cbn in Hr |- *. now rewrite R1 in Hr.
      * eapply Rle_trans; [exact G1|]. right. unfold gain. rewrite out_shape_cat1. reflexivity.
  - cbn [em_step] in H. destruct (em_step x B U ch (fun b f c r => G b 0%nat c r)) as [ch'|] eqn:E; [|discriminate].
    cbn [bind] in H. injection H as <-. cbn in W, HL.
    apply IH in E; auto; [|eapply ll_shape_product; eauto|].
    2:{ intros b f c r Hb Hf Hc Hr. apply HG; auto; cbn; lia. }
    destruct E as (ES & ER & AP & AP' & HGain).
    assert (forall b c r, (b < B)%nat -> (c < channels (out_shape ch))%nat -> (r < ll_reps ch)%nat ->
      0 < pr (loglik (MProduct ch) (x b) 0 c r) /\ ln (pr (loglik (MProduct ch) (x b) 0 c r)) = bsum (features (out_shape ch)) (fun f => ln (pr (loglik ch (x b) f c r)))) as A1.
    { intros b c r Hb Hc Hr. unfold loglik. fold (pev (leaf_score (x b)) (MProduct ch) 0 c r). rewrite pev_product.
      apply ln_bprod. intros f Hf. apply AP; auto. }
    assert (forall b c r, (b < B)%nat -> (c < channels (out_shape ch))%nat -> (r < ll_reps ch)%nat ->
      0 < pr (loglik (MProduct ch') (x b) 0 c r) /\ ln (pr (loglik (MProduct ch') (x b) 0 c r)) = bsum (features (out_shape ch)) (fun f => ln (pr (loglik ch' (x b) f c r)))) as A2.
    { intros b c r Hb Hc Hr. unfold loglik. fold (pev (leaf_score (x b)) (MProduct ch') 0 c r). rewrite pev_product, ES.
      apply ln_bprod. intros f Hf. apply AP'; rewrite ?ES, ?ER; auto. }
    split; [cbn; now rewrite ES|]. split; [cbn; now rewrite ER|].
    split; [|split].
    + intros b f c r Hb Hf Hc Hr. cbn in Hf. assert (f = 0%nat) as -> by lia. apply A1; auto.
    + intros b f c r Hb Hf Hc Hr. cbn in Hf, Hc, Hr. rewrite ES in Hc. rewrite ER in Hr. assert (f = 0%nat) as -> by lia. apply A2; auto.
    + eapply Rle_trans; [exact HGain|]. right. unfold gain. cbn [out_shape features channels ll_reps]. unfold tsum.
      apply bsum_ext. intros b Hb. cbn [bsum]. rewrite Rplus_0_l. rewrite bsum_swap. apply bsum_ext. intros c Hc.
      rewrite bsum_swap. apply bsum_ext. intros r Hr.
      destruct (A1 b c r Hb Hc Hr) as [_ ->]. destruct (A2 b c r Hb Hc Hr) as [_ ->].
      rewrite bsum_scal. f_equal. 
      rewrite (bsum_ext _ _ (fun f => ln (pr (loglik ch' (x b) f c r)) + (-1) * ln (pr (loglik ch (x b) f c r)))) by (intros; ring).
      rewrite bsum_plus, bsum_scal. ring.
Qed.
End Step.

(** ** float arithmetic agrees with the real-valued step on positive values *)
Lemma flse_of n v : flse n (fun i => of_lval (v i)) = of_lval (lse n v).
Proof.
  unfold flse. assert (existsb (fun i => is_nan (of_lval (v i))) (seq 0 n) = false) as ->.
  { induction (seq 0 n) as [|a l IH]; [reflexivity|]. cbn. rewrite IH. now destruct (v a). }
  f_equal. unfold lse. f_equal. apply bsum_ext. intros i _. now destruct (v i).
Qed.
Lemma flse_ext n v w : (forall i, (i < n)%nat -> v i = w i) -> flse n v = flse n w.
Proof.
  intros H. unfold flse. replace (existsb (fun i => is_nan (v i)) (seq 0 n)) with (existsb (fun i => is_nan (w i)) (seq 0 n)).
  - destruct (existsb _ _); [reflexivity|]. f_equal. unfold lse. f_equal. apply bsum_ext. intros i Hi. now rewrite H.
  - assert (forall l, (forall i, In i l -> (i < n)%nat) -> existsb (fun i => is_nan (w i)) l = existsb (fun i => is_nan (v i)) l) as A.
    { induction l as [|a l IH]; intros Hl; [reflexivity|]. cbn. rewrite IH by (intros; apply Hl; now right). rewrite H; [reflexivity|]. apply Hl. now left. }
    apply A. intros i Hi. apply in_seq in Hi. lia.
Qed.

Lemma flse_nan n v i : (i < n)%nat -> v i = FNan -> flse n v = FNan.
Proof.
  intros Hi E. unfold flse. assert (existsb (fun i => is_nan (v i)) (seq 0 n) = true) as ->; [|reflexivity].
  apply existsb_exists. exists i. split; [apply in_seq; lia|now rewrite E].
Qed.

(** a Sum whose value is -inf on one row gets NaN weights *)
Lemma em_nan x B ch co rr lg G f i o r b : (b < B)%nat -> loglik (MSum ch co rr lg) (x b) f o r = NInf ->
  new_log_weights_fl x B ch co rr lg G f i o r = FNan.
Proof.
  intros Hb E. unfold new_log_weights_fl. assert (log_expect_fl x B ch co rr lg G f i o r = FNan) as ->; [|reflexivity].
  unfold log_expect_fl. apply flse_nan with b; [assumption|]. rewrite E. cbn [of_lval].
  match goal with |- fsub ?a _ = _ => destruct a; reflexivity end.
Qed.

Lemma em_fl x B ch co rr lg G f i o r : 
  (forall b, (b < B)%nat -> 0 < G b f o r /\ 0 < pr (loglik (MSum ch co rr lg) (x b) f o r) /\
     forall j, (j < channels (out_shape ch))%nat -> 0 < pr (loglik ch (x b) f j (bidx (ll_reps ch) r))) ->
  (0 < B)%nat -> (i < channels (out_shape ch))%nat ->
  new_log_weights_fl x B ch co rr lg G f i o r = FFin (finval (em_logits x B ch co rr lg G f i o r)).
Proof.
  intros H HB Hi.
  assert (forall j, (j < channels (out_shape ch))%nat -> log_expect_fl x B ch co rr lg G f j o r = of_lval (log_expect x B ch co rr lg G f j o r)
     /\ 0 < pr (log_expect x B ch co rr lg G f j o r)) as E.
  { intros j Hj. split.
    - unfold log_expect_fl, log_expect. rewrite <- flse_of. apply flse_ext. intros b Hb. destruct (H b Hb) as (A & P & Q). specialize (Q j Hj).
      unfold resp. rewrite (pos_fin _ P), (pos_fin _ Q). unfold lfrom. destruct (Rlt_dec 0 (G b f o r)); [|lra].
      cbn. f_equal. ring.
    - unfold log_expect. rewrite pr_lse. apply bsum_pos; [assumption|]. intros b Hb. destruct (H b Hb) as (A & P & Q). specialize (Q j Hj).
      rewrite pr_ladd. apply Rmult_lt_0_compat; [rewrite pr_lfrom; lra|]. unfold resp. rewrite pr_lsub by assumption.
      apply Rdiv_lt_0_compat; [|assumption]. rewrite pr_ladd. apply Rmult_lt_0_compat; [apply exp_pos|assumption]. }
  unfold new_log_weights_fl, em_logits. destruct (E i Hi) as [-> Pi].
  rewrite (flse_ext _ _ (fun j => of_lval (log_expect x B ch co rr lg G f j o r))) by (intros j Hj; apply E, Hj).
  rewrite flse_of.
  assert (0 < pr (lse (channels (out_shape ch)) (fun j => log_expect x B ch co rr lg G f j o r))) as Ps.
  { rewrite pr_lse. apply bsum_pos; [lia|]. intros j Hj. apply E, Hj. }
  rewrite (pos_fin _ Pi), (pos_fin _ Ps). reflexivity.
Qed.
