(** Properties C32, C96, C97: interval evidence. *)
From Coq Require Import List Arith ZArith Bool Reals Lra Lia.
From Verif Require Import Base ScopeModel ScopeProofs CircuitModel CircuitBasics CircuitEval Integral CircuitMarg LeafModel LeafSpec LeafProofs LeafTop IvModel IvSpec IvProofs IvTop SocsExamples.
Import ListNotations.
Local Open Scope R_scope.

(** C32: evidence is accepted iff both bounds are tables of the same shape and no
    cell with two finite bounds has its lower bound above its upper bound. *)
Theorem C32_accepts : forall shl shh lo hi ev, mk_iv shl shh lo hi = Ok ev <->
  (exists B F, shl = [B; F] /\ shh = [B; F] /\ ev = mkIv B F lo hi /\
   forall b j x y, (b < B)%nat -> (j < F)%nat -> lo b j = Num x -> hi b j = Num y -> x <= y).
Proof. exact mk_iv_spec. Qed.
Print Assumptions C32_accepts.

(** The result of every row is the probability of the box, up to 1e-40 per
    variable (families clamp the mass of an interval at 1e-40 before the log) ... *)
Theorem C32_box : forall D fo m s f c r shl shh lo hi b g vs,
  built m -> aligned m -> ll_shape m = Ok s -> in_shape s f c r -> leaf_families D fo m ->
  log_likelihood_interval fo m shl shh lo hi b = Ok g ->
  NoDup vs -> (forall v, In v vs <-> In v (nth f (fts m) [])) ->
  exists P, box_prob D vs (fun y => prob m y f c r) (fun v => (lo b v, hi b v)) P /\
    P <= pr (g f c r) <= P + INR (length vs) * / 10 ^ 40.
Proof.
  intros D fo m s f c r shl shh lo hi b g vs B A L I LF H ND HV. unfold log_likelihood_interval in H.
  destruct (mk_iv shl shh lo hi) as [ev|] eqn:E; [|discriminate]. cbn [bind] in H.
  apply mk_iv_spec in E. destruct E as (B0 & F0 & _ & _ & -> & _).
  exact (box_bounds D fo _ m s f c r g vs B A L I LF H ND HV).
Qed.
Print Assumptions C32_box.

(** ... and exactly it as soon as every leaf entry gives its interval 1e-40 or more. *)
Theorem C32_box_exact : forall D fo m s f c r shl shh lo hi b g vs,
  built m -> aligned m -> ll_shape m = Ok s -> in_shape s f c r -> leaf_families D fo m ->
  log_likelihood_interval fo m shl shh lo hi b = Ok g ->
  NoDup vs -> (forall v, In v vs <-> In v (nth f (fts m) [])) ->
  Forall (fun l => forall f c r, (f < length (query (l_scope l)))%nat -> (c < l_ch l)%nat -> (r < l_rep l)%nat ->
    exists p, box_mass (D (nth f (query (l_scope l)) 0%nat)) (fun a => pr (l_lp l f c r a))
                (lo b (nth f (query (l_scope l)) 0%nat), hi b (nth f (query (l_scope l)) 0%nat)) p /\ / 10 ^ 40 <= p)
    (leaves_of m) ->
  box_prob D vs (fun y => prob m y f c r) (fun v => (lo b v, hi b v)) (pr (g f c r)).
Proof.
  intros D fo m s f c r shl shh lo hi b g vs B A L I LF H ND HV HM. unfold log_likelihood_interval in H.
  destruct (mk_iv shl shh lo hi) as [ev|] eqn:E; [|discriminate]. cbn [bind] in H.
  apply mk_iv_spec in E. destruct E as (B0 & F0 & _ & _ & -> & _).
  exact (box_exactly D fo _ m s f c r g vs B A L I LF H ND HV HM).
Qed.
Print Assumptions C32_box_exact.

(** Leaf level: the interval score is the mass of the interval, never below 1e-40. *)
Theorem C32_leaf : forall d fm lo hi, fam_ok fm = true -> fits d fm -> interval_capable fm (lo, hi) ->
  exists p v, box_mass d (fun a => pr (fam_lp fm a)) (lo, hi) p /\ fam_iv fm lo hi = Ok v /\
    (pr v = p \/ pr v = Rmax p (/ 10 ^ 40)).
Proof.
  intros d fm lo hi A B C. destruct (fam_iv_mass fm lo hi A C) as (v & E & V).
  exists (mass fm lo hi), v. split; [|exact (conj E V)]. apply mass_spec; auto. destruct fm; cbn in *; auto.
Qed.
Print Assumptions C32_leaf.

(** The call succeeds exactly for leaves whose family implements intervals (with
    non-negative bounds for Exponential). *)
Theorem C32_succeeds : forall D fo m shl shh lo hi b, leaf_families D fo m ->
  ((exists g, log_likelihood_interval fo m shl shh lo hi b = Ok g) <->
   (exists ev, mk_iv shl shh lo hi = Ok ev) /\
   Forall (fun l => forall f c r, (f < length (query (l_scope l)))%nat -> (c < l_ch l)%nat -> (r < l_rep l)%nat ->
     interval_capable (fl_fam (fo l) f c r)
       (lo b (nth f (query (l_scope l)) 0%nat), hi b (nth f (query (l_scope l)) 0%nat))) (leaves_of m)).
Proof.
  intros D fo m shl shh lo hi b LF. unfold log_likelihood_interval.
  destruct (mk_iv shl shh lo hi) as [ev|] eqn:E; cbn [bind].
  - pose proof E as E'. apply mk_iv_spec in E'. destruct E' as (B0 & F0 & _ & _ & -> & _).
    pose proof (iv_ok_iff D fo (row_of (mkIv B0 F0 lo hi) b) m LF) as K. split.
    + intros H. split; [eauto|]. apply K. exact H.
    + intros [_ H]. apply K. exact H.
  - split; [intros (g & H); discriminate|intros [(ev & H) _]; discriminate].
Qed.
Print Assumptions C32_succeeds.

(** No bounds: the log-probability is 0. *)
Theorem C32_unbounded : forall D fo m s f c r shl shh lo hi b g,
  built m -> aligned m -> ll_shape m = Ok s -> in_shape s f c r -> leaf_families D fo m ->
  log_likelihood_interval fo m shl shh lo hi b = Ok g -> (forall v, lo b v = Nan /\ hi b v = Nan) -> g f c r = Fin 0.
Proof.
  intros D fo m s f c r shl shh lo hi b g B A L I LF H HN. unfold log_likelihood_interval in H.
  destruct (mk_iv shl shh lo hi) as [ev|] eqn:E; [|discriminate]. cbn [bind] in H.
  apply mk_iv_spec in E. destruct E as (B0 & F0 & _ & _ & -> & _).
  apply (iv_unbounded D fo _ m s f c r g B A L I LF H). intros v. unfold row_of. cbn. destruct (HN v) as [-> ->]. reflexivity.
Qed.
Print Assumptions C32_unbounded.

(** A circuit mixing discrete and continuous leaves, over a box. *)
Definition ivF : fleaf := mk_fleaf (mkScope [0; 1]%nat []) 2 1 (fun f c _ =>
  match f, c with O, O => FBernoulli 0 | O, _ => FCategorical 2 (fun _ => 0) | _, O => FUniform 0 4 | _, _ => FLaplace 1 0 end).
Definition ivL : leaf := fl_leaf ivF (fun _ _ _ => 0).
Definition ivM : module := MSum (MProduct (MLeaf ivL)) 1 1 (fun _ _ _ _ => 0).
Definition ivD (v : nat) : domain := match v with O => DNat | _ => DReal end.
Definition ivlo (_ v : nat) : fl := match v with O => Nan | _ => Num 1 end.
Definition ivhi (_ v : nat) : fl := match v with O => Num (1/2) | _ => Pinf end.

Lemma ivM_built : built ivM.
Proof.
  apply b_sum; try (cbn; lia). apply b_leaf2. apply leaf_okb_spec. cbn.
  repeat split; try lia; try discriminate; repeat constructor; cbn; intuition lia.
Qed.
Lemma ivM_fams : leaf_families ivD (fun _ => ivF) ivM.
Proof.
  constructor; [|constructor]. split; [exists (fun _ _ _ => 0); reflexivity|]. intros f c r Hf Hc _.
  destruct f as [|[|f]]; [| |cbn in *; lia]; (destruct c as [|[|c]]; [| |cbn in *; lia]); (split; [try reflexivity|]).
  - right. split; [discriminate|reflexivity].
  - right. split; [discriminate|reflexivity].
  - cbn. unfold rlt. destruct (Rlt_dec 0 4); [reflexivity|lra].
  - left. reflexivity.
  - left. reflexivity.
Qed.

Example C32_nonvacuous :
  built ivM /\ aligned ivM /\ ll_shape ivM = Ok (mkShape 1 1 1) /\ leaf_families ivD (fun _ => ivF) ivM /\
  (exists g, log_likelihood_interval (fun _ => ivF) ivM [1; 2]%nat [1; 2]%nat ivlo ivhi 0 = Ok g) /\
  log_likelihood_interval (fun _ => ivF) ivM [1; 2]%nat [1; 2]%nat ivhi ivlo 0 <> Err.
Proof.
  split; [exact ivM_built|]. split; [exact I|]. split; [reflexivity|]. split; [exact ivM_fams|].
  assert (forall lo hi, (forall b j x y, (b < 1)%nat -> (j < 2)%nat -> lo b j = Num x -> hi b j = Num y -> x <= y) ->
    exists g, log_likelihood_interval (fun _ => ivF) ivM [1; 2]%nat [1; 2]%nat lo hi 0 = Ok g) as K.
  { intros lo hi H. apply (C32_succeeds ivD _ _ _ _ _ _ _ ivM_fams). split.
    - exists (mkIv 1 2 lo hi). apply mk_iv_spec. exists 1%nat, 2%nat. auto.
    - repeat constructor. intros f c r Hf Hc _. destruct f as [|[|f]]; [| |cbn in *; lia]; (destruct c as [|[|c]]; [| |cbn in *; lia]); exact I. }
  split.
  - apply K. intros b [|j] x y _ _ E1 E2; discriminate.
  - destruct (K ivhi ivlo) as (g & ->); [|discriminate]. intros b [|j] x y _ _ E1 E2; discriminate.
Qed.

(** [1 <= U] for U uniform on [0, 4): probability 3/4 *)
Example C32_uniform_value : fam_iv (FUniform 0 4) (Num 1) Nan = Ok (lfrom (3 / 4)).
Proof.
  cbn [fam_iv]. unfold uniform_iv. rewrite (Rmax_left 1 0) by lra. rewrite Rmax_left by lra.
  replace ((4 - 1) / (4 - 0)) with (3 / 4) by field. reflexivity.
Qed.

(** C96 (refuted): "NaN means the side is unbounded" for every family: an
    Exponential leaf raises on an unbounded lower side. *)
Theorem C96_exponential_unbounded_refuted : forall lr hi, fam_ok (FExponential lr) = true /\
  fam_iv (FExponential lr) Nan hi = Err.
Proof.
  intros lr hi. split; [reflexivity|]. cbn [fam_iv]. unfold base_iv. cbn [nan_to]. cbn [exponential_cdf bind].
  destruct (exponential_cdf (exp lr) (nan_to Pinf hi)); reflexivity.
Qed.
Print Assumptions C96_exponential_unbounded_refuted.

(** C97 (refuted): "every leaf family supports interval evidence". *)
Theorem C97_families_refuted : forall lo hi n l r lr K N,
  fam_iv (FBinomial n l) lo hi = Err /\ fam_iv (FGeometric l) lo hi = Err /\ fam_iv (FPoisson lr) lo hi = Err /\
  fam_iv (FNegBin r l) lo hi = Err /\ fam_iv (FHyper K N n) lo hi = Err.
Proof. intros. exact (conj eq_refl (conj eq_refl (conj eq_refl (conj eq_refl eq_refl)))). Qed.
Print Assumptions C97_families_refuted.

(** C98 (refuted): "an impossible interval has log-probability -inf": a Bernoulli
    leaf on [2, 3] scores log 1e-40. *)
Theorem C98_impossible_refuted : exists v, fam_iv (FBernoulli 0) (Num 2) (Num 3) = Ok v /\ v <> NInf /\
  (forall a, inside (Num 2, Num 3) a -> pr (fam_lp (FBernoulli 0) a) = 0).
Proof.
  eexists. split; [reflexivity|]. split; [discriminate|]. intros a [H1 H2]. cbn in H1, H2.
  unfold fam_lp. replace (supp (FBernoulli 0) a) with false; [reflexivity|]. symmetry. cbn.
  destruct (asnat a) as [[|[|k]]|] eqn:E; try reflexivity; exfalso.
  - apply asnat_Some in E. cbn in E. lra.
  - apply asnat_Some in E. cbn in E. lra.
Qed.
Print Assumptions C98_impossible_refuted.
