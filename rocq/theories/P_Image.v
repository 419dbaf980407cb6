(** C51, C164-C167: ImageWrapper *)
From Coq Require Import List Arith Bool ZArith Lia Lra Permutation FunctionalExtensionality.
From Verif Require Import Base ScopeModel ScopeProofs CircuitModel CircuitSpec CircuitBasics CircuitEval Integral CircuitMarg CircuitProps MargModel MargProofs CircuitExamples SampleModel SampleSpec SampleExp SampleProofs SampleTop SampleApi SampleKeep SignedModel ConvProofs ImageModel ImageProofs.
Import ListNotations.
Local Open Scope R_scope.

(** Below [pix H W c h w] = c * (H * W) + h * W + w is the column of pixel (c, h, w) and
    [rows_of C H W t x] says that the row [x] holds the image [t] in these columns. *)
Definition rows_of (C H W : nat) (t : nat -> nat -> nat -> option R) (x : row) : Prop :=
  forall c h w, (c < C)%nat -> (h < H)%nat -> (w < W)%nat -> x (c * (H * W) + h * W + w)%nat = t c h w.

(** 1 if the image [d] shows exactly the (complete) picture [y], else 0 *)
Definition shows (C H W : nat) (y : nat -> nat -> nat -> option R) (d : imdata) : R :=
  bprod C (fun c => bprod H (fun h => bprod W (fun w =>
    match y c h w, d_px d c h w with Some b, Some a => if Req_EM_T a b then 1 else 0 | _, _ => 0 end))).

Lemma bprod_01 n f : (forall i, (i < n)%nat -> f i = 0 \/ f i = 1) -> (bprod n f = 1 /\ forall i, (i < n)%nat -> f i = 1) \/ (bprod n f = 0 /\ exists i, (i < n)%nat /\ f i = 0).
Proof.
  induction n as [|n IH]; intros H; [left; split; [reflexivity|intros; lia]|]. cbn [bprod].
  destruct IH as [[E A]|[E (i & Hi & A)]]; [intros; apply H; lia| |].
  - destruct (H n ltac:(lia)) as [F|F].
    + right. split; [rewrite F; ring|exists n; split; [lia|exact F]].
    + left. split; [rewrite E, F; ring|]. intros i Hi. destruct (Nat.eq_dec i n) as [->|]; [exact F|apply A; lia].
  - right. split; [rewrite E; ring|exists i; split; [lia|exact A]].
Qed.

Lemma shows_spec C H W y d : (shows C H W y d = 0 \/ shows C H W y d = 1) /\
  (shows C H W y d = 1 <-> forall c h w, (c < C)%nat -> (h < H)%nat -> (w < W)%nat -> exists a, y c h w = Some a /\ d_px d c h w = Some a).
Proof.
  set (g := fun c h w => match y c h w, d_px d c h w with Some b, Some a => if Req_EM_T a b then 1 else 0 | _, _ => 0 end).
  assert (forall c h w, (g c h w = 0 /\ ~ exists a, y c h w = Some a /\ d_px d c h w = Some a) \/ (g c h w = 1 /\ exists a, y c h w = Some a /\ d_px d c h w = Some a)) as G.
  { intros c h w. unfold g. destruct (y c h w) as [b|], (d_px d c h w) as [a|].
    - destruct (Req_EM_T a b) as [->|N]; [right; eauto|left]. split; [reflexivity|]. intros (e & E1 & E2). apply N. congruence.
    - left. split; [reflexivity|]. intros (e & E1 & E2). discriminate.
    - left. split; [reflexivity|]. intros (e & E1 & E2). discriminate.
    - left. split; [reflexivity|]. intros (e & E1 & E2). discriminate. }
  assert (forall c h, bprod W (fun w => g c h w) = 1 /\ (forall w, (w < W)%nat -> exists a, y c h w = Some a /\ d_px d c h w = Some a) \/
    bprod W (fun w => g c h w) = 0 /\ ~ (forall w, (w < W)%nat -> exists a, y c h w = Some a /\ d_px d c h w = Some a)) as G1.
  { intros c h. destruct (bprod_01 W (fun w => g c h w)) as [[E A]|[E (w & Hw & A)]].
    - intros w _. destruct (G c h w) as [[-> _]|[-> _]]; auto.
    - left. split; [exact E|]. intros w Hw. specialize (A w Hw). destruct (G c h w) as [[F _]|[_ F]]; [lra|exact F].
    - right. split; [exact E|]. intros B. destruct (G c h w) as [[_ F]|[F _]]; [exact (F (B w Hw))|lra]. }
  assert (forall c, bprod H (fun h => bprod W (fun w => g c h w)) = 1 /\ (forall h w, (h < H)%nat -> (w < W)%nat -> exists a, y c h w = Some a /\ d_px d c h w = Some a) \/
    bprod H (fun h => bprod W (fun w => g c h w)) = 0 /\ ~ (forall h w, (h < H)%nat -> (w < W)%nat -> exists a, y c h w = Some a /\ d_px d c h w = Some a)) as G2.
  { intros c. destruct (bprod_01 H (fun h => bprod W (fun w => g c h w))) as [[E A]|[E (h & Hh & A)]].
    - intros h _. destruct (G1 c h) as [[-> _]|[-> _]]; auto.
    - left. split; [exact E|]. intros h w Hh Hw. specialize (A h Hh). destruct (G1 c h) as [[_ F]|[F _]]; [now apply F|lra].
    - right. split; [exact E|]. intros B. destruct (G1 c h) as [[F _]|[_ F]]; [lra|]. apply F. intros w Hw. now apply B. }
  unfold shows. change (fun c => bprod H (fun h => bprod W (fun w => match y c h w, d_px d c h w with Some b, Some a => if Req_EM_T a b then 1 else 0 | _, _ => 0 end)))
    with (fun c => bprod H (fun h => bprod W (fun w => g c h w))).
  destruct (bprod_01 C (fun c => bprod H (fun h => bprod W (fun w => g c h w)))) as [[E A]|[E (c & Hc & A)]].
  - intros c _. destruct (G2 c) as [[-> _]|[-> _]]; auto.
  - split; [auto|]. rewrite E. split; [intros _|reflexivity]. intros c h w Hc Hh Hw. specialize (A c Hc). destruct (G2 c) as [[_ F]|[F _]]; [now apply F|lra].
  - split; [auto|]. rewrite E. split; [lra|]. intros B. exfalso. destruct (G2 c) as [[F _]|[_ F]]; [lra|]. apply F. intros h w Hh Hw. now apply B.
Qed.

Lemma node_scope_incl n m : node_of n m -> wf m -> forall v, In v (query (scope_of n)) -> In v (query (scope_of m)).
Proof.
  induction 1 as [m|n c co rr lg H IH|n c H IH|n c d2 sc cs Hin H IH]; intros W v Hv; auto.
  - apply IH; [apply W|exact Hv].
  - pose proof (wf_cat_children _ _ _ W) as Wc. rewrite Forall_forall in Wc. apply (cat_child_scope d2 sc cs c v W Hin). apply IH; auto.
Qed.

(** *** C51: pixels and columns correspond one to one *)
Theorem C51_columns : forall C H W,
  (forall c h w, (c < C)%nat -> (h < H)%nat -> (w < W)%nat -> (c * (H * W) + h * W + w < C * H * W)%nat) /\
  (forall u, (u < C * H * W)%nat -> exists c h w, (c < C)%nat /\ (h < H)%nat /\ (w < W)%nat /\ u = (c * (H * W) + h * W + w)%nat /\
     forall c' h' w', (c' < C)%nat -> (h' < H)%nat -> (w' < W)%nat -> u = (c' * (H * W) + h' * W + w')%nat -> c' = c /\ h' = h /\ w' = w) /\
  forall m d g, mk_image m (Z.of_nat C) (Z.of_nat H) (Z.of_nat W) = Ok g -> d_c d = C -> d_h d = H -> d_w d = W ->
    exists x t, flatten g d = Ok ((C * H * W)%nat, x) /\ rows_of C H W (d_px d) x /\ to_image g (C * H * W) x = Ok t /\
    forall c h w, (c < C)%nat -> (h < H)%nat -> (w < W)%nat -> t c h w = d_px d c h w.
Proof.
  intros C H W. split; [|split].
  - intros c h w Hc Hh Hw. apply (pix_enc C H W c h w Hc Hh Hw).
  - intros u Hu. destruct (pix_dec C H W u Hu) as (A1 & A2 & A3 & A4). exists (u / (H * W))%nat, ((u / W) mod H)%nat, (u mod W)%nat.
    split; [exact A1|]. split; [exact A2|]. split; [exact A3|]. split; [exact A4|]. intros c' h' w' B1 B2 B3 E; assert (pix H W (u / (H * W)) ((u / W) mod H) (u mod W) = pix H W c' h' w') as E' by (rewrite <- A4; exact E);
      apply (pix_inj C) in E'; auto. destruct E' as (-> & -> & ->). auto.
  - intros m [dc dh dw t] g Eg Ec Eh Ew. cbn [d_px d_c d_h d_w] in *. subst dc dh dw. apply mk_image_ok in Eg. destruct Eg as [-> L].
    exists (flat (mkData C H W t)). eexists. unfold flatten. cbn [d_c d_h d_w w_c]. rewrite Z.eqb_refl. split; [reflexivity|].
    assert (rows_of C H W t (flat (mkData C H W t))) as RO by (intros c h w Hc Hh Hw; now apply flat_pix).
    split; [exact RO|]. rewrite to_image_ok. split; [reflexivity|]. intros c h w Hc Hh Hw. now apply RO.
Qed.

(** *** log_likelihood of an image is the wrapped module's on its pixels *)
Theorem C51_log_likelihood : forall m (C H W : nat) g s t x, built m -> mk_image m (Z.of_nat C) (Z.of_nat H) (Z.of_nat W) = Ok g -> ll_shape m = Ok s ->
  (forall v, vars m v -> (v < C * H * W)%nat) -> rows_of C H W t x ->
  exists L, image_ll g (mkData C H W t) = Ok (s, L) /\ forall f c r, in_shape s f c r -> L f c r = loglik m x f c r.
Proof.
  intros m C H W g s t x B E L HB RO. pose proof (built_wf m B) as Wf. apply mk_image_ok in E. destruct E as [-> Ln].
  eexists. split; [now apply image_ll_ok|]. intros f c r I. apply evalm_scope_local; auto.
  - destruct (ll_shape_spec m s Wf L) as (E1 & _). rewrite <- E1. apply I.
  - intros v Hv. destruct (pix_dec C H W v (HB v Hv)) as (A1 & A2 & A3 & A4). rewrite A4. rewrite flat_pix by assumption. symmetry. apply RO; assumption.
Qed.

(** images of other sizes are rejected, and so is every image unless the scope is exactly
    the columns 0 .. C*H*W-1 *)
Theorem C51_log_likelihood_defined : forall m g d (C H W : nat), built m -> mk_image m (Z.of_nat C) (Z.of_nat H) (Z.of_nat W) = Ok g ->
  (exists r, image_ll g d = Ok r) <->
  d_c d = C /\ d_h d = H /\ d_w d = W /\ (exists s, ll_shape m = Ok s) /\ (forall v, vars m v <-> (v < C * H * W)%nat).
Proof.
  intros m g d C H W B E. pose proof (built_wf m B) as Wf. apply mk_image_ok in E. destruct E as [-> Ln]. split.
  - intros ([s L] & E). apply image_ll_inv in E. cbn [w_c w_h w_w w_mod] in E. destruct E as (E1 & E2 & E3 & E4 & E5).
    apply Nat2Z.inj in E1, E2, E3. subst C H W.
    split; [reflexivity|]. split; [reflexivity|]. split; [reflexivity|]. split; [eauto|]. now apply scope_full.
  - destruct d as [dc dh dw t]. cbn [d_c d_h d_w]. intros (-> & -> & -> & [s L] & HV). eexists. apply image_ll_ok; [|exact L]. intros v Hv. now apply HV.
Qed.

(** *** sampling: every complete picture appears with its probability *)
Lemma shows_tests C H W y z : (forall c h w, (c < C)%nat -> (h < H)%nat -> (w < W)%nat -> exists b, y c h w = Some b) ->
  tests (point (flat (mkData C H W y))) (seq 0 (C * H * W)) z = shows C H W y (mkData C H W (fun c h w => z (pix H W c h w))).
Proof.
  intros Hy. unfold tests, shows. rewrite lprod_seq_pix. apply bprod_ext. intros c Hc. apply bprod_ext. intros h Hh. apply bprod_ext. intros w Hw.
  unfold point. rewrite flat_pix by assumption. cbn [d_px]. destruct (Hy c h w Hc Hh Hw) as [b ->]. unfold cell. now destruct (z (pix H W c h w)).
Qed.

Theorem C51_sample : forall (dom : nat -> list R) m s (C H W : nat) g t y x,
  (forall v, NoDup (dom v)) -> built m -> aligned m -> ll_shape m = Ok s -> (0 < repetitions s)%nat ->
  mk_image m (Z.of_nat C) (Z.of_nat H) (Z.of_nat W) = Ok g -> (forall v, vars m v -> (v < C * H * W)%nat) ->
  (forall c h w, (c < C)%nat -> (h < H)%nat -> (w < W)%nat -> t c h w = None) ->
  (forall c h w, (c < C)%nat -> (h < H)%nat -> (w < W)%nat -> exists b, y c h w = Some b /\ In b (dom (c * (H * W) + h * W + w)%nat)) ->
  rows_of C H W y x ->
  expects (fun v => DFin (dom v)) (image_sample false g (mkData C H W t)) (shows C H W y) (joint m x) /\
  expects (fun v => DFin (dom v)) (image_sample_new false g) (shows C H W y) (joint m x).
Proof.
  intros dom m s C H W g t y x ND B A L Rp E HB Ht Hy RO. pose proof (built_wf m B) as Wf. apply mk_image_ok in E. destruct E as [-> Ln].
  assert (forall t', (forall c h w, (c < C)%nat -> (h < H)%nat -> (w < W)%nat -> t' c h w = None) ->
    expects (fun v => DFin (dom v)) (image_sample false (mkImw m (Z.of_nat C) (Z.of_nat H) (Z.of_nat W)) (mkData C H W t')) (shows C H W y) (joint m x)) as K.
  { intros t' Ht'. unfold image_sample. rewrite image_sample_unfold.
    assert (forall v, vars m v <-> (v < C * H * W)%nat) as HV by now apply scope_full.
    assert (forall v, (v < C * H * W)%nat -> exists b, flat (mkData C H W y) v = Some b /\ In b (dom v)) as Fy.
    { intros v Hv. destruct (pix_dec C H W v Hv) as (A1 & A2 & A3 & A4). rewrite A4. rewrite flat_pix by assumption. now apply Hy. }
    assert (joint m x = joint m (flat (mkData C H W y))) as ->.
    { unfold joint. apply bprod_ext. intros f Hf. unfold prob. f_equal. apply evalm_scope_local; auto. intros v Hv.
      destruct (pix_dec C H W v (HB v Hv)) as (A1 & A2 & A3 & A4). rewrite A4. rewrite flat_pix by assumption. apply RO; assumption. }
    eapply expects_bind with (u2 := tests (point (flat (mkData C H W y))) (seq 0 (C * H * W))).
    - apply (c09_fin dom (C * H * W) m s ND B A L Rp HB (flat (mkData C H W t'))).
      + intros v Hv. destruct (pix_dec C H W v (HB v Hv)) as (A1 & A2 & A3 & A4). rewrite A4. rewrite flat_pix by assumption. now apply Ht'.
      + apply seq_NoDup.
      + intros v. rewrite in_seq, HV. lia.
      + intros v Hv. apply in_seq in Hv. apply Fy. lia.
      + intros v Hv. rewrite in_seq in Hv. unfold flat. cbn [d_c d_h d_w]. destruct (Nat.ltb_spec v (C * H * W)); [lia|reflexivity].
    - intros z _. cbn [expects]. symmetry. apply shows_tests. intros c h w Hc Hh Hw. destruct (Hy c h w Hc Hh Hw) as (b & Eb & _). eauto. }
  split; [now apply K|]. unfold image_sample_new. cbn [w_c w_h w_w]. rewrite !(proj2 (Z.leb_le _ _)) by lia. cbn [andb]. rewrite !Nat2Z.id. now apply K.
Qed.

(** with observed pixels: every completion with its conditional probability *)
Theorem C51_sample_with_evidence : forall (dom : nat -> list R) m s (C H W : nat) g e y xe xy,
  (forall v, NoDup (dom v)) -> built m -> aligned m -> ll_shape m = Ok s -> (0 < repetitions s)%nat ->
  mk_image m (Z.of_nat C) (Z.of_nat H) (Z.of_nat W) = Ok g -> (forall v, vars m v -> (v < C * H * W)%nat) ->
  (forall c h w, (c < C)%nat -> (h < H)%nat -> (w < W)%nat -> exists b, y c h w = Some b /\ In b (dom (c * (H * W) + h * W + w)%nat)) ->
  (forall c h w, (c < C)%nat -> (h < H)%nat -> (w < W)%nat -> e c h w = None \/ e c h w = y c h w) ->
  rows_of C H W e xe -> rows_of C H W y xy -> sums_positive m xe -> joint m xe <> 0 ->
  expects (fun v => DFin (dom v)) (image_sample_with_evidence false g (mkData C H W e)) (shows C H W y) (joint m xy / joint m xe).
Proof.
  intros dom m s C H W g e y xe xy ND B A L Rp E HB Hy He ROe ROy SP J. pose proof (built_wf m B) as Wf. apply mk_image_ok in E. destruct E as [-> Ln].
  assert (forall v, vars m v <-> (v < C * H * W)%nat) as HV by now apply scope_full.
  unfold image_sample_with_evidence. rewrite (image_ll_ok m C H W e s HB L), image_sample_unfold.
  set (fe := flat (mkData C H W e)). set (fy := flat (mkData C H W y)).
  assert (forall t x, rows_of C H W t x -> forall v, (v < C * H * W)%nat -> x v = flat (mkData C H W t) v) as RW.
  { intros t x RO v Hv. destruct (pix_dec C H W v Hv) as (A1 & A2 & A3 & A4). rewrite A4. rewrite flat_pix by assumption. apply RO; assumption. }
  assert (forall t x, rows_of C H W t x -> joint m x = joint m (flat (mkData C H W t))) as JW.
  { intros t x RO. unfold joint. apply bprod_ext. intros f Hf. unfold prob. f_equal. apply evalm_scope_local; [exact Wf|exact Hf|]. intros v Hv. apply RW; [exact RO|]. now apply HB. }
  rewrite (JW _ _ ROe), (JW _ _ ROy) in *. fold fe fy in J |- *.
  assert (sums_positive m fe) as SP'.
  { intros n f c Hn Hs Hf Hc. specialize (SP n f c Hn Hs Hf Hc). unfold prob in *. rewrite <- (evalm_scope_local n (wf_node n m Hn Wf) f c 0 Hf xe fe); [exact SP|].
    intros v Hv. apply RW; [exact ROe|]. apply HB. now apply (node_scope_incl n m Hn Wf). }
  assert (forall v, (v < C * H * W)%nat -> exists b, fy v = Some b /\ In b (dom v)) as Fy.
  { intros v Hv. unfold fy. destruct (pix_dec C H W v Hv) as (A1 & A2 & A3 & A4). rewrite A4. rewrite flat_pix by assumption. now apply Hy. }
  assert (forall v, (v < C * H * W)%nat -> fe v = None \/ fe v = fy v) as Fe.
  { intros v Hv. unfold fe, fy. destruct (pix_dec C H W v Hv) as (A1 & A2 & A3 & A4). rewrite A4. rewrite !flat_pix by assumption. now apply He. }
  assert (forall v, ~ (v < C * H * W)%nat -> fy v = None /\ fe v = None) as Fo.
  { intros v Hv. unfold fe, fy, flat. cbn [d_c d_h d_w]. destruct (Nat.ltb_spec v (C * H * W)); [lia|auto]. }
  set (vs := filter (fun v => isnone (fe v)) (seq 0 (C * H * W))).
  assert (forall v, In v vs <-> (v < C * H * W)%nat /\ fe v = None) as Hvs.
  { intros v. unfold vs. rewrite filter_In, in_seq. unfold isnone. destruct (fe v); split; intros [P Q]; split; auto; try lia; try discriminate. }
  eapply expects_bind with (u2 := tests (point fy) (seq 0 (C * H * W))).
  - pose proof (c10_fin dom (C * H * W) m s ND B A L Rp HB fe vs fy SP' J) as K. unfold sample_with_evidence in K. rewrite L in K.
    rewrite (proj2 (forallb_lt _ _) HB) in K. eapply expects_ext; [|apply K].
    + intros z Hz. destruct (c11 false (C * H * W) (Some fe) m fe z B Hz) as [Kp _]. unfold tests.
      unfold vs. rewrite lprod_filter. apply lprod_ext. intros v Hv. apply in_seq in Hv. unfold isnone. destruct (fe v) as [a|] eqn:Ea; [|reflexivity].
      rewrite (Kp v ltac:(congruence)), Ea. cbn [cell]. unfold point. destruct (Fe v ltac:(lia)) as [C0|C0]; [congruence|]. rewrite <- C0, Ea. destruct (Req_EM_T a a); [reflexivity|congruence].
    + split; [apply NoDup_filter, seq_NoDup|]. intros v. rewrite Hvs. split; intros [P Q]; split; auto; now apply HV.
    + intros v Hv. apply Hvs in Hv. apply Fy. tauto.
    + intros v Hv. destruct (lt_dec v (C * H * W)) as [Hl|Hl].
      * destruct (Fe v Hl) as [E0|E0]; [exfalso; apply Hv; apply Hvs; auto|congruence].
      * destruct (Fo v Hl). congruence.
  - intros z _. cbn [expects]. symmetry. apply shows_tests. intros c h w Hc Hh Hw. destruct (Hy c h w Hc Hh Hw) as (b & Eb & _). eauto.
Qed.

(** every image that sample, mpe or sample_with_evidence returns has the wrapper's size,
    keeps the observed pixels of an image of that size and leaves none missing *)
Theorem C51_sample_keeps : forall mpe m (C H W : nat) g t d', built m -> mk_image m (Z.of_nat C) (Z.of_nat H) (Z.of_nat W) = Ok g ->
  (outcome (image_sample mpe g (mkData C H W t)) d' \/ outcome (image_sample_with_evidence mpe g (mkData C H W t)) d') ->
  d_c d' = C /\ d_h d' = H /\ d_w d' = W /\
  (forall c h w, (c < C)%nat -> (h < H)%nat -> (w < W)%nat -> t c h w <> None -> d_px d' c h w = t c h w) /\
  (aligned m -> (forall v, vars m v -> (v < C * H * W)%nat) -> forall c h w, (c < C)%nat -> (h < H)%nat -> (w < W)%nat -> d_px d' c h w <> None).
Proof.
  intros mpe m C H W g t d' B E O. pose proof (built_wf m B) as Wf. apply mk_image_ok in E. destruct E as [-> Ln].
  assert (exists ev, outcome (image_sample_ev mpe (mkImw m (Z.of_nat C) (Z.of_nat H) (Z.of_nat W)) ev (mkData C H W t)) d') as [ev O'].
  { destruct O as [O|O]; [exists None; exact O|]. unfold image_sample_with_evidence in O. destruct (image_ll _ _); [eauto|inversion O]. }
  rewrite image_sample_unfold in O'. apply outcome_bind in O'. destruct O' as (z & Oz & Od). inversion Od; subst. cbn [d_c d_h d_w d_px].
  destruct (c11 mpe _ ev m _ z B Oz) as [K1 K2].
  split; [reflexivity|]. split; [reflexivity|]. split; [reflexivity|]. split.
  - intros c h w Hc Hh Hw Ht. rewrite K1; rewrite flat_pix by assumption; auto.
  - intros A HB c h w Hc Hh Hw. destruct (K2 HB) as [_ K3]. apply K3; auto. apply (scope_full m _ Wf Ln HB). now apply pix_enc.
Qed.

(** *** marginalize: distinct channels, rows and columns (negative indices count from the
    end) of an image whose scope is listed in column order.  [S] are the removed pixels. *)
Theorem C51_marginalize : forall m s (C H W : nat) g cs hs ws ci hi wi prune,
  built m -> aligned m -> reps_ok m -> no_evidence m -> ll_shape m = Ok s ->
  mk_image m (Z.of_nat C) (Z.of_nat H) (Z.of_nat W) = Ok g -> query (scope_of m) = seq 0 (C * H * W) ->
  selects C cs ci -> selects H hs hi -> selects W ws wi -> NoDup ci -> NoDup hi -> NoDup wi ->
  exists o S, image_marg cs hs ws prune g = Ok o /\
  (forall c h w, (c < C)%nat -> (h < H)%nat -> (w < W)%nat -> In (c * (H * W) + h * W + w)%nat S <-> In c ci \/ In h hi \/ In w wi) /\
  (o = None <-> length ci = C \/ length hi = H \/ length wi = W) /\
  forall g', o = Some g' ->
    w_c g' = (Z.of_nat C - Z.of_nat (length ci))%Z /\ w_h g' = (Z.of_nat H - Z.of_nat (length hi))%Z /\ w_w g' = (Z.of_nat W - Z.of_nat (length wi))%Z /\
    (forall v, vars (w_mod g') v <-> vars m v /\ ~ In v S) /\
    exists s', ll_shape (w_mod g') = Ok s' /\ channels s' = channels s /\ repetitions s' = repetitions s /\ features s' = length (kidx S (fts m)) /\
    forall j c r x, in_shape s' j c r -> loglik (w_mod g') x j c r = loglik m (set_nan S x) (nth j (kidx S (fts m)) 0%nat) c r.
Proof.
  intros m s C H W g cs hs ws ci hi wi prune B A RO NE L E Eq Sc Sh Sw NC NH NW. pose proof (built_wf m B) as Wf. apply mk_image_ok in E. destruct E as [-> Ln].
  rewrite (image_marg_unfold m C H W cs hs ws ci hi wi prune Ln Sc Sh Sw).
  set (S := dropped (fun c h w => nth (pix H W c h w) (query (scope_of m)) 0%nat) C H W ci hi wi).
  assert (forall c h w, (c < C)%nat -> (h < H)%nat -> (w < W)%nat -> nth (pix H W c h w) (query (scope_of m)) 0%nat = pix H W c h w) as Nq.
  { intros c h w Hc Hh Hw. rewrite Eq. apply seq_nth. now apply pix_enc. }
  assert (forall c h w, (c < C)%nat -> (h < H)%nat -> (w < W)%nat -> In (pix H W c h w) S <-> In c ci \/ In h hi \/ In w wi) as HS.
  { intros c h w Hc Hh Hw. unfold S. rewrite dropped_In; [|exact (selects_lt _ _ _ Sc)|exact (selects_lt _ _ _ Sh)|exact (selects_lt _ _ _ Sw)]. split.
    - intros (c' & h' & w' & Hc' & Hh' & Hw' & I & Ep). rewrite Nq in Ep by assumption. apply (pix_inj C) in Ep; auto. destruct Ep as (-> & -> & ->). exact I.
    - intros I. exists c, h, w. rewrite Nq by assumption. auto 10. }
  assert (forall v, vars m v <-> exists c h w, (c < C)%nat /\ (h < H)%nat /\ (w < W)%nat /\ v = pix H W c h w) as HV.
  { intros v. unfold vars. rewrite Eq, in_seq. split.
    - intros Hv. destruct (pix_dec C H W v ltac:(lia)) as (A1 & A2 & A3 & A4). eauto 8.
    - intros (c & h & w & Hc & Hh & Hw & ->). destruct (pix_enc C H W c h w Hc Hh Hw) as [P _]. lia. }
  pose proof (rest_length C ci NC (selects_lt _ _ _ Sc)) as RC. pose proof (rest_length H hi NH (selects_lt _ _ _ Sh)) as RH. pose proof (rest_length W wi NW (selects_lt _ _ _ Sw)) as RW.
  destruct (c05 S prune m s B A RO NE L) as (o & Eo & No & Ho). rewrite Eo. cbn [bind].
  destruct (marg_spec S prune m Wf A RO NE) as (o' & Eo' & Mo). rewrite Eo in Eo'. injection Eo' as <-.
  assert (o = None <-> length ci = C \/ length hi = H \/ length wi = W) as HN.
  { rewrite No. split.
    - intros HI. destruct (rest C ci) as [|c ?] eqn:E1; [left; cbn in RC; lia|]. destruct (rest H hi) as [|h ?] eqn:E2; [right; left; cbn in RH; lia|].
      destruct (rest W wi) as [|w ?] eqn:E3; [right; right; cbn in RW; lia|]. exfalso.
      assert (In c (rest C ci)) as I1 by (rewrite E1; now left). assert (In h (rest H hi)) as I2 by (rewrite E2; now left). assert (In w (rest W wi)) as I3 by (rewrite E3; now left).
      apply rest_In in I1, I2, I3. assert (In (pix H W c h w) S) as I by (apply HI, HV; exists c, h, w; tauto).
      apply HS in I; tauto.
    - intros HL v Hv. apply HV in Hv. destruct Hv as (c & h & w & Hc & Hh & Hw & ->). apply HS; auto.
      destruct HL as [HL|[HL|HL]].
      + left. destruct (in_dec Nat.eq_dec c ci) as [|N]; [assumption|]. exfalso. assert (In c (rest C ci)) as I by (apply rest_In; auto). destruct (rest C ci); [destruct I|cbn in RC; lia].
      + right. left. destruct (in_dec Nat.eq_dec h hi) as [|N]; [assumption|]. exfalso. assert (In h (rest H hi)) as I by (apply rest_In; auto). destruct (rest H hi); [destruct I|cbn in RH; lia].
      + right. right. destruct (in_dec Nat.eq_dec w wi) as [|N]; [assumption|]. exfalso. assert (In w (rest W wi)) as I by (apply rest_In; auto). destruct (rest W wi); [destruct I|cbn in RW; lia]. }
  destruct o as [m'|].
  - destruct (Ho m' eq_refl) as (HV' & s' & L' & H1 & H2 & H3 & H4). cbn [margspec] in Mo. destruct Mo as [_ Mo]. pose proof (r_wf _ _ _ Mo) as Wm'.
    assert (length (query (scope_of m')) = (length (rest C ci) * (length (rest H hi) * length (rest W wi)))%nat) as Len.
    { apply (survivors_count C H W ci hi wi); [apply (wf_scope m' (wf_wf1 m' Wm'))|]. intros v. change (In v (query (scope_of m'))) with (vars m' v). rewrite HV', HV. split.
      - intros [(c & h & w & Hc & Hh & Hw & ->) N]. exists c, h, w. rewrite HS in N by assumption. auto.
      - intros (c & h & w & Hc & Hh & Hw & N & ->). split; [eauto 8|]. now rewrite HS. }
    assert (mk_image m' (Z.of_nat C - Z.of_nat (length ci)) (Z.of_nat H - Z.of_nat (length hi)) (Z.of_nat W - Z.of_nat (length wi)) =
      Ok (mkImw m' (Z.of_nat C - Z.of_nat (length ci)) (Z.of_nat H - Z.of_nat (length hi)) (Z.of_nat W - Z.of_nat (length wi)))) as Em.
    { unfold mk_image. rewrite Len. replace (Z.of_nat C - Z.of_nat (length ci))%Z with (Z.of_nat (length (rest C ci))) by lia.
      replace (Z.of_nat H - Z.of_nat (length hi))%Z with (Z.of_nat (length (rest H hi))) by lia. replace (Z.of_nat W - Z.of_nat (length wi))%Z with (Z.of_nat (length (rest W wi))) by lia.
      rewrite <- !Nat2Z.inj_mul. rewrite (proj2 (Z.eqb_eq _ _)); [reflexivity|]. f_equal. ring. }
    rewrite Em. cbn [bind]. eexists. exists S. split; [reflexivity|]. split; [exact HS|]. split; [split; [discriminate|intros X; apply HN in X; discriminate]|].
    intros g' X. injection X as <-. cbn [w_c w_h w_w w_mod]. split; [reflexivity|]. split; [reflexivity|]. split; [reflexivity|]. split; [exact HV'|]. exists s'. auto 10.
  - exists None, S. split; [reflexivity|]. split; [exact HS|]. split; [split; [intros _; now apply HN|reflexivity]|]. intros g' X. discriminate.
Qed.

(** *** C164 (refuted): the selected rows form a set, naming a row twice removes it once.
    For every image with at least two rows, removing one row named twice raises. *)
Theorem C164_duplicate_rows_refuted : forall m s (C H W : nat) g h prune, built m -> aligned m -> reps_ok m -> no_evidence m -> ll_shape m = Ok s ->
  mk_image m (Z.of_nat C) (Z.of_nat H) (Z.of_nat W) = Ok g -> query (scope_of m) = seq 0 (C * H * W) -> (h < H)%nat -> (2 <= H)%nat ->
  image_marg [] [Z.of_nat h; Z.of_nat h] [] prune g = Err.
Proof.
  intros m s C H W g h prune B A RO NE L E Eq Hh H2. pose proof (built_wf m B) as Wf. apply mk_image_ok in E. destruct E as [-> Ln].
  assert (forall n, selects n [] []) as S0 by (intros n; constructor).
  assert (selects H [Z.of_nat h; Z.of_nat h] [h; h]) as Sh by (repeat constructor; auto).
  rewrite (image_marg_unfold m C H W _ _ _ _ _ _ prune Ln (S0 C) Sh (S0 W)).
  set (S := dropped (fun c h w => nth (pix H W c h w) (query (scope_of m)) 0%nat) C H W [] [h; h] []).
  assert (C * H * W <> 0)%nat as NZ.
  { intros Z. rewrite Z in Eq. pose proof (wf_wf1 m Wf) as W1. pose proof (wf_fpos m W1) as Fp. pose proof (wf_qpos m W1 0 Fp) as Q.
    destruct (nthq m 0) as [|v q] eqn:EN; [congruence|]. assert (In v (query (scope_of m))) as I by (apply (wf_union m W1); exists 0%nat; split; [exact Fp|rewrite EN; now left]).
    rewrite Eq in I. destruct I. }
  assert (C <> 0 /\ W <> 0)%nat as [C0 W0] by (split; intros ->; lia).
  assert (forall c k w, (c < C)%nat -> (k < H)%nat -> (w < W)%nat -> nth (pix H W c k w) (query (scope_of m)) 0%nat = pix H W c k w) as Nq.
  { intros c k w Hc Hk Hw. rewrite Eq. apply seq_nth. now apply pix_enc. }
  assert (forall c k w, (c < C)%nat -> (k < H)%nat -> (w < W)%nat -> In (pix H W c k w) S <-> k = h) as HS.
  { intros c k w Hc Hk Hw. unfold S. rewrite dropped_In; [|intros ? []| |intros ? []]; [|cbn; intros ? [<-|[<-|[]]]; exact Hh]. split.
    - intros (c' & h' & w' & Hc' & Hh' & Hw' & I & Ep). rewrite Nq in Ep by assumption. apply (pix_inj C) in Ep; auto. destruct Ep as (-> & -> & ->). cbn in I. intuition.
    - intros ->. exists c, h, w. rewrite Nq by assumption. cbn. auto 10. }
  destruct (c05 S prune m s B A RO NE L) as (o & Eo & No & Ho). rewrite Eo. cbn [bind].
  destruct (marg_spec S prune m Wf A RO NE) as (o' & Eo' & Mo). rewrite Eo in Eo'. injection Eo' as <-.
  destruct o as [m'|].
  - destruct (Ho m' eq_refl) as (HV' & _). cbn [margspec] in Mo. destruct Mo as [_ Mo]. pose proof (r_wf _ _ _ Mo) as Wm'.
    assert (length (query (scope_of m')) = (length (rest C []) * (length (rest H [h]) * length (rest W [])))%nat) as Len.
    { apply (survivors_count C H W [] [h] []); [apply (wf_scope m' (wf_wf1 m' Wm'))|]. intros v. change (In v (query (scope_of m'))) with (vars m' v). rewrite HV'. unfold vars. rewrite Eq, in_seq. split.
      - intros [Hv N]. destruct (pix_dec C H W v ltac:(lia)) as (A1 & A2 & A3 & A4). eexists _, _, _. split; [exact A1|]. split; [exact A2|]. split; [exact A3|]. split; [|exact A4].
        cbn. intros [[]|[[X|[]]|[]]]. apply N. rewrite A4. apply HS; auto.
      - intros (c & k & w & Hc & Hk & Hw & N & ->). split; [destruct (pix_enc C H W c k w Hc Hk Hw); lia|]. rewrite HS by assumption. intros ->. apply N. cbn. auto. }
    pose proof (rest_length C [] (NoDup_nil _) ltac:(intros ? [])) as RC. pose proof (rest_length W [] (NoDup_nil _) ltac:(intros ? [])) as RW.
    pose proof (rest_length H [h] ltac:(repeat constructor; intros []) ltac:(intros ? [<-|[]]; exact Hh)) as RH. cbn [length] in RC, RW, RH |- *.
    unfold mk_image. rewrite Len. destruct (Z.eqb_spec (Z.of_nat (length (rest C []) * (length (rest H [h]) * length (rest W [])))) ((Z.of_nat H - Z.of_nat 2) * (Z.of_nat W - Z.of_nat 0) * (Z.of_nat C - Z.of_nat 0))) as [X|X]; [|reflexivity].
    exfalso. replace (length (rest C [])) with C in X by lia. replace (length (rest W [])) with W in X by lia. replace (length (rest H [h])) with (H - 1)%nat in X by lia.
    rewrite !Nat2Z.inj_mul, Nat2Z.inj_sub in X by lia. nia.
  - exfalso. pose proof (proj1 No eq_refl) as X. set (k := if Nat.eqb h 0 then 1%nat else 0%nat).
    assert (k < H /\ k <> h)%nat as [K1 K2] by (unfold k; destruct (Nat.eqb_spec h 0); lia).
    apply K2. apply (HS 0%nat k 0%nat); try lia. apply X. unfold vars. rewrite Eq, in_seq. destruct (pix_enc C H W 0 k 0); lia.
Qed.

(** *** C165 (refuted): the wrapper that marginalize returns can evaluate images of its own
    size.  Whenever something was removed and the last pixel was not, it evaluates no image
    at all: its variables keep their old column numbers. *)
Theorem C165_marginalized_wrapper_refuted : forall m s (C H W : nat) g cs hs ws ci hi wi prune g',
  built m -> aligned m -> reps_ok m -> no_evidence m -> ll_shape m = Ok s ->
  mk_image m (Z.of_nat C) (Z.of_nat H) (Z.of_nat W) = Ok g -> query (scope_of m) = seq 0 (C * H * W) ->
  selects C cs ci -> selects H hs hi -> selects W ws wi -> NoDup ci -> NoDup hi -> NoDup wi ->
  ~ In (C - 1)%nat ci -> ~ In (H - 1)%nat hi -> ~ In (W - 1)%nat wi -> (ci <> [] \/ hi <> [] \/ wi <> []) ->
  image_marg cs hs ws prune g = Ok (Some g') ->
  forall d, image_ll g' d = Err /\ image_sample_with_evidence false g' d = Raise.
Proof.
  intros m s C H W g cs hs ws ci hi wi prune g' B A RO NE L E Eq Sc Sh Sw NC NH NW LC LH LW Ne Em d.
  destruct (C51_marginalize m s C H W g cs hs ws ci hi wi prune B A RO NE L E Eq Sc Sh Sw NC NH NW) as (o & S & Eo & HS & No & Ho).
  rewrite Em in Eo. injection Eo as <-. destruct (Ho g' eq_refl) as (D1 & D2 & D3 & HV & _).
  assert (image_ll g' d = Err) as X; [|split; [exact X|unfold image_sample_with_evidence; now rewrite X]].
  destruct (image_ll g' d) as [[s0 L0]|] eqn:EI; [exfalso|reflexivity]. apply image_ll_inv in EI. destruct EI as (I1 & I2 & I3 & _ & I5).
  pose proof (rest_length C ci NC (selects_lt _ _ _ Sc)) as RC. pose proof (rest_length H hi NH (selects_lt _ _ _ Sh)) as RH. pose proof (rest_length W wi NW (selects_lt _ _ _ Sw)) as RW.
  assert (length ci <> C /\ length hi <> H /\ length wi <> W) as (N1 & N2 & N3).
  { repeat split; intros N; assert (Some g' = None) by (apply No; auto); discriminate. }
  rewrite I1 in D1. rewrite I2 in D2. rewrite I3 in D3.
  assert (d_c d = C - length ci /\ d_h d = H - length hi /\ d_w d = W - length wi)%nat as (F1 & F2 & F3) by lia.
  assert (vars (w_mod g') ((C - 1) * (H * W) + (H - 1) * W + (W - 1))%nat) as V.
  { apply HV. destruct (pix_enc C H W (C - 1) (H - 1) (W - 1) ltac:(lia) ltac:(lia) ltac:(lia)) as [P _].
    split; [unfold vars; rewrite Eq; apply in_seq; split; [apply Nat.le_0_l|exact P]|]. rewrite HS by lia. tauto. }
  specialize (I5 _ V). rewrite F1, F2, F3 in I5.
  assert (length ci + length hi + length wi <> 0)%nat as NN.
  { intros Z. destruct Ne as [N|[N|N]]; apply N; apply length_zero_iff_nil; lia. }
  assert (exists a b e, C = Datatypes.S (a + length ci) /\ H = Datatypes.S (b + length hi) /\ W = Datatypes.S (e + length wi))%nat as (a & b & e & Ca & Hb & We).
  { exists (C - 1 - length ci)%nat, (H - 1 - length hi)%nat, (W - 1 - length wi)%nat. lia. }
  clear - I5 NN Ca Hb We. set (p := length ci) in *. set (q := length hi) in *. set (r := length wi) in *. clearbody p q r. subst C H W. 
  replace (Datatypes.S (a + p) - 1)%nat with (a + p)%nat in I5 by lia. replace (Datatypes.S (b + q) - 1)%nat with (b + q)%nat in I5 by lia. replace (Datatypes.S (e + r) - 1)%nat with (e + r)%nat in I5 by lia.
  replace (Datatypes.S (a + p) - p)%nat with (Datatypes.S a) in I5 by lia. replace (Datatypes.S (b + q) - q)%nat with (Datatypes.S b) in I5 by lia. replace (Datatypes.S (e + r) - r)%nat with (Datatypes.S e) in I5 by lia.
  nia.
Qed.

(** *** C166 (refuted): marginalising column [w] removes the pixels that log_likelihood
    reads from column [w].  With a scope listed as (1, 0) it removes the other pixel. *)
Definition swapped : module := MLeaf (bern [1; 0]%nat 1 1 (fun f _ _ => if Nat.eqb f 0 then 1/4 else 3/4)).
Theorem C166_scope_order_refuted : built swapped /\ exists g g',
  mk_image swapped 1 1 2 = Ok g /\ image_marg [] [] [0%Z] true g = Ok (Some g') /\
  (forall t, exists L, image_ll g (mkData 1 1 2 t) = Ok (mkShape 2 1 1, L) /\
     (forall a b, t 0%nat 0%nat 0%nat = Some a -> t 0%nat 0%nat 1%nat = Some b -> L 0%nat 0%nat 0%nat = bern_lp (1/4) b /\ L 1%nat 0%nat 0%nat = bern_lp (3/4) a)) /\
  (forall v, vars (w_mod g') v <-> v = 0%nat).
Proof.
  split; [apply b_leaf; apply bern_ok; try lia; [discriminate|repeat constructor; cbn; intuition lia]|].
  exists (mkImw swapped 1 1 2), (mkImw (MLeaf (leaf_marg [1%nat] (bern [1; 0]%nat 1 1 (fun f _ _ => if Nat.eqb f 0 then 1/4 else 3/4)))) 1 1 1).
  split; [reflexivity|]. split; [reflexivity|]. split.
  - intros t. eexists. split; [reflexivity|]. intros a b Ea Eb. split.
    + change (leaf_score (flat (mkData 1 1 2 t)) (bern [1; 0]%nat 1 1 (fun f _ _ => if Nat.eqb f 0 then 1/4 else 3/4)) 0 0 0 = bern_lp (1/4) b).
      unfold leaf_score. cbn [nth query l_scope bern]. change (flat (mkData 1 1 2 t) 1%nat) with (t 0%nat 0%nat 1%nat). now rewrite Eb.
    + change (leaf_score (flat (mkData 1 1 2 t)) (bern [1; 0]%nat 1 1 (fun f _ _ => if Nat.eqb f 0 then 1/4 else 3/4)) 1 0 0 = bern_lp (3/4) a).
      unfold leaf_score. cbn [nth query l_scope bern]. change (flat (mkData 1 1 2 t) 0%nat) with (t 0%nat 0%nat 0%nat). now rewrite Ea.
  - intros v. cbn. split; [intros [<-|[]]; reflexivity|intros ->; now left].
Qed.

(** *** C167 (refuted): sample keeps the observed pixels of every image it accepts.  An
    image of the wrong height and width but the right number of pixels is accepted (which
    log_likelihood rejects) and comes back in another shape with its pixels moved. *)
Definition six : module := MLeaf (bern (seq 0 6) 1 1 (fun _ _ _ => 1/2)).
Theorem C167_transposed_image_refuted : built six /\ exists g, mk_image six 1 2 3 = Ok g /\
  forall mpe (f : nat -> nat -> nat -> R), exists d',
    image_sample mpe g (mkData 1 3 2 (fun c h w => Some (f c h w))) = Ret d' /\ d_h d' = 2%nat /\ d_w d' = 3%nat /\
    d_px d' 0%nat 0%nat 2%nat = Some (f 0%nat 1%nat 0%nat) /\ d_px d' 0%nat 1%nat 0%nat = Some (f 0%nat 1%nat 1%nat) /\
    image_ll g (mkData 1 3 2 (fun c h w => Some (f c h w))) = Err.
Proof.
  split; [apply b_leaf; apply bern_ok; try lia; [discriminate|apply seq_NoDup]|].
  eexists. split; [reflexivity|]. intros mpe f. eexists. split; [reflexivity|]. repeat split; reflexivity.
Qed.

(** ** A concrete wrapper: two channels of 1 by 2 pixels over one circuit *)
Definition four : module := MProduct (MLeaf (bern (seq 0 4) 1 1 (fun f _ _ => if Nat.eqb f 0 then 1/4 else 3/4))).
Lemma four_built : built four.
Proof. apply (b_product [MLeaf (bern (seq 0 4) 1 1 (fun f _ _ => if Nat.eqb f 0 then 1/4 else 3/4))]); [|reflexivity]. constructor; [|constructor]. apply b_leaf. apply bern_ok; try lia; [discriminate|apply seq_NoDup]. Qed.

Example C51_example : exists g g', mk_image four 2 1 2 = Ok g /\ query (scope_of four) = seq 0 4 /\ aligned four /\ reps_ok four /\ no_evidence four /\ ll_shape four = Ok (mkShape 1 1 1) /\
  image_marg [(-1)%Z] [] [] true g = Ok (Some g') /\ w_c g' = 1%Z /\ (forall v, vars (w_mod g') v <-> v = 0%nat \/ v = 1%nat) /\
  (exists r, image_ll g' (mkData 1 1 2 (fun _ _ _ => None)) = Ok r) /\
  expects (fun _ => bits) (image_sample_new false g) (shows 2 1 2 (fun _ _ _ => Some 1)) (joint four (fun _ => Some 1)).
Proof.
  assert (selects 2 [(-1)%Z] [1%nat]) as S1 by (apply Forall2_cons; [split; [lia|right; reflexivity]|apply Forall2_nil]).
  assert (forall n, selects n [] []) as S0 by (intros n; apply Forall2_nil).
  assert (NoDup [1%nat]) as N1 by (apply NoDup_cons; [intros []|apply NoDup_nil]).
  destruct (C51_marginalize four (mkShape 1 1 1) 2 1 2 (mkImw four 2 1 2) [(-1)%Z] [] [] [1%nat] [] [] true four_built I I eq_refl eq_refl eq_refl eq_refl
    S1 (S0 1%nat) (S0 2%nat) N1 (NoDup_nil _) (NoDup_nil _)) as (o & S & Eo & HS & No & Ho).
  destruct o as [g'|]; [|exfalso; assert (length [1%nat] = 2 \/ length (@nil nat) = 1 \/ length (@nil nat) = 2)%nat as X by (now apply No); cbn in X; lia].
  destruct (Ho g' eq_refl) as (D1 & D2 & D3 & HV & s' & L' & _).
  assert (forall v, vars (w_mod g') v <-> v = 0%nat \/ v = 1%nat) as V.
  { intros v. rewrite HV. change (In v [0;1;2;3]%nat /\ ~ In v S <-> v = 0%nat \/ v = 1%nat).
    pose proof (HS 0%nat 0%nat 0%nat ltac:(lia) ltac:(lia) ltac:(lia)) as X0. pose proof (HS 0%nat 0%nat 1%nat ltac:(lia) ltac:(lia) ltac:(lia)) as X1.
    pose proof (HS 1%nat 0%nat 0%nat ltac:(lia) ltac:(lia) ltac:(lia)) as X2. pose proof (HS 1%nat 0%nat 1%nat ltac:(lia) ltac:(lia) ltac:(lia)) as X3.
    cbn in X0, X1, X2, X3. split.
    - intros [[<-|[<-|[<-|[<-|[]]]]] N]; auto; exfalso; apply N; tauto.
    - intros [->| ->]; (split; [cbn; auto|]); intros C; intuition lia. }
  exists (mkImw four 2 1 2), g'. split; [reflexivity|]. split; [reflexivity|]. split; [exact I|]. split; [exact I|]. split; [reflexivity|]. split; [reflexivity|].
  split; [exact Eo|]. split; [exact D1|]. split; [exact V|]. split.
  - destruct g' as [m' c' h' w']. cbn in D1, D2, D3, V, L'. subst c' h' w'. eexists. apply (image_ll_ok m' 1 1 2 _ s'); [|exact L']. intros v Hv. apply V in Hv. cbn. lia.
  - apply (C51_sample (fun _ => [0; 1]) four (mkShape 1 1 1) 2 1 2 (mkImw four 2 1 2) (fun _ _ _ => None) (fun _ _ _ => Some 1) (fun _ => Some 1)); auto; try reflexivity.
    + intros _. repeat constructor; cbn; intros C; intuition lra.
    + exact four_built.
    + intros v Hv. change (In v [0;1;2;3]%nat) in Hv. cbn in Hv |- *. lia.
    + intros c h w _ _ _. exists 1. split; [reflexivity|cbn; auto].
    + intros c h w _ _ _. reflexivity.
Qed.
Example C51_evidence_example :
  let e := fun c h w : nat => if Nat.eqb c 0 then Some 1 else None in
  let xe := flat (mkData 2 1 2 e) in
  expects (fun _ => bits) (image_sample_with_evidence false (mkImw four 2 1 2) (mkData 2 1 2 e)) (shows 2 1 2 (fun _ _ _ => Some 1)) (joint four (fun _ => Some 1) / joint four xe) /\
  joint four xe = 3/16.
Proof.
  intros e xe.
  assert (joint four xe = 3/16) as J.
  { unfold joint. change (features (out_shape four)) with 1%nat. cbn [bprod]. rewrite Rmult_1_l. unfold four. rewrite prob_pev, pev_product. 
    change (features (out_shape (MLeaf (bern (seq 0 4) 1 1 (fun f _ _ => if Nat.eqb f 0 then 1/4 else 3/4))))) with 4%nat. cbn [bprod].
    assert (forall f, pev (leaf_score xe) (MLeaf (bern (seq 0 4) 1 1 (fun f _ _ => if Nat.eqb f 0 then 1/4 else 3/4))) f 0 0 = pr (match xe (nth f (seq 0 4) 0%nat) with None => Fin 0 | Some a => bern_lp (if Nat.eqb f 0 then 1/4 else 3/4) a end)) as K by reflexivity.
    rewrite !K. change (xe (nth 0 (seq 0 4) 0%nat)) with (Some 1). change (xe (nth 1 (seq 0 4) 0%nat)) with (Some 1).
    change (xe (nth 2 (seq 0 4) 0%nat)) with (@None R). change (xe (nth 3 (seq 0 4) 0%nat)) with (@None R). cbn [Nat.eqb]. rewrite !pr_bern_1 by lra. cbn [pr]. rewrite exp_0. lra. }
  split; [|exact J].
  apply (C51_sample_with_evidence (fun _ => [0; 1]) four (mkShape 1 1 1) 2 1 2 (mkImw four 2 1 2) e (fun _ _ _ => Some 1) xe (fun _ => Some 1)); try reflexivity; auto.
  - intros _. repeat constructor; cbn; intros C; intuition lra.
  - exact four_built.
  - intros v Hv. change (In v [0;1;2;3]%nat) in Hv. cbn in Hv |- *. lia.
  - intros c h w _ _ _. exists 1. split; [reflexivity|cbn; auto].
  - intros c h w _ _ _. unfold e. destruct (Nat.eqb c 0); auto.
  - intros c h w Hc Hh Hw. exact (flat_pix 2 1 2 e c h w Hc Hh Hw).
  - intros c h w _ _ _. reflexivity.
  - intros n f c Hn Hs _ _. inversion Hn as [|? ? ? ? ? H|? ? H|? ? ? ? ? ? H]; subst; [contradiction|]. inversion H; subst. contradiction.
  - lra.
Qed.

Print Assumptions C51_columns.
Print Assumptions C51_log_likelihood.
Print Assumptions C51_log_likelihood_defined.
Print Assumptions C51_sample.
Print Assumptions C51_sample_with_evidence.
Print Assumptions C51_sample_keeps.
Print Assumptions C51_marginalize.
Print Assumptions C164_duplicate_rows_refuted.
Print Assumptions C165_marginalized_wrapper_refuted.
Print Assumptions C166_scope_order_refuted.
Print Assumptions C167_transposed_image_refuted.
