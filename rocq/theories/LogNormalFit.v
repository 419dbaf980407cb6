(** The whole-leaf estimates of a log-normal leaf. *)
From Coq Require Import List Arith Bool Reals Lra Lia.
From Verif Require Import Base ScopeModel CircuitModel CircuitEval Integral LeafModel LeafSpec LeafProofs MleModel MleSpec MleProofs MleProofs2 MleTop LogNormalModel LogNormalFitModel LogNormalProofs LogNormalMle.
Import ListNotations.
Local Open Scope R_scope.

Lemma ln_mle_entry F C P ulp bc ns d res f c r l :
  ln_mle F C P ulp bc ns d = Ok res -> (f < F)%nat -> (c < C)%nat -> (r < P)%nat ->
  weights_nonneg d -> samples F f c r d l -> l <> [] -> Forall (fun q => 0 < fst q) l ->
  exists t, 0 < t /\ res f c r = est_lognormal ulp bc (XR t) l.
Proof.
  intros H Hf Hc Hr HN HS NE W. unfold ln_mle in H. destruct (apply_nan F C P ns d) as [[d' s]|] eqn:E; cbn in H; [|discriminate].
  apply apply_nan_ok in E. destruct E as [-> ->]. injection H as <-.
  pose proof (samples_column _ _ _ _ _ _ Hf HS) as EL. set (d' := filter (fun o => negb (has_nan F o)) d) in *.
  assert (d' <> []) as Nd. { intros Z. rewrite EL, Z in NE. now apply NE. }
  assert (0 < wtotal F C P d') as PW.
  { apply (wtotal_pos F C P f c r); auto.
    - intros o f' c' r' Ho. apply HN. unfold d' in Ho. apply filter_In in Ho. apply Ho.
    - intros o Ho. rewrite EL in W. rewrite Forall_forall in W.
      specialize (W (o_w o f c r, match o_cell o f with Some a => a | None => 0 end)). apply W.
      unfold column. exact (in_map (fun o => (o_w o f c r, match o_cell o f with Some a => a | None => 0 end)) d' o Ho). }
  exists (INR (length d') / wtotal F C P d'). split.
  - apply Rdiv_lt_0_compat; [|assumption]. apply lt_0_INR. destruct d'; [congruence|cbn; lia].
  - rewrite <- EL. cbn [xdiv]. destruct (Req_EM_T (wtotal F C P d') 0); [lra|reflexivity].
Qed.

Lemma ln_mle_optimal F C P ulp ns d res f c r l :
  ln_mle F C P ulp false ns d = Ok res -> (f < F)%nat -> (c < C)%nat -> (r < P)%nat ->
  weights_nonneg d -> samples F f c r d l -> Forall (fun q => 0 < fst q /\ 0 < snd q) l ->
  (exists a b, a <> b /\ occurs (eq a) l /\ occurs (eq b) l) ->
  exists p, ln_stored (res f c r) = Some p /\ forall p', ln_wll p' l <= ln_wll p l.
Proof.
  intros H Hf Hc Hr HN HS W D.
  destruct (ln_mle_entry _ _ _ _ _ _ _ _ _ _ _ _ H Hf Hc Hr HN HS) as (t & Ht & E).
  - intros ->. destruct D as (a & b & _ & (q & [] & _) & _).
  - eapply Forall_impl; [|exact W]. cbn. tauto.
  - rewrite E. now apply ln_optimal.
Qed.

Lemma xdiv_by_zero x : 0 < x -> xdiv (XR x) (XR 0) = XPInf.
Proof. intros H. unfold xdiv. destruct (Req_EM_T 0 0); [|lra]. unfold xpos. now rewrite rcmp_gt. Qed.

(** The property C320 refutes. *)
Lemma ln_bc_two : exists res, ln_mle 2 1 1 0 true NsNone (unweighted [fun _ => Some (exp 0); fun _ => Some (exp 2)]) = Ok res /\
  forall f, res f 0%nat 0%nat = (XR 1, XPInf).
Proof.
  unfold ln_mle. rewrite apply_nan_complete; [|discriminate|lia|].
  2:{ intros o [<-|[<-|[]]] f _; discriminate. }
  cbn [bind]. eexists. split; [reflexivity|]. intros f. rewrite wtotal_unweighted, column_unweighted. cbn [unweighted map length].
  rewrite xdiv_R by (cbn; lra). replace (INR 2 / (INR 2 * (INR 2 * (INR 1 * INR 1)))) with (/ 2) by (cbn; field).
  unfold est_lognormal, S0, S1, Sdev. cbn [map lsumR fst snd xmul]. rewrite !ln_exp, xdiv_R by lra.
  replace (/ 2 * (1 * 0 + (1 * 2 + 0)) / (/ 2 * (1 + (1 + 0)))) with 1 by field.
  cbn [xmul xsub xadd xneg]. replace (/ 2 * (1 + (1 + 0)) + - (1)) with 0 by field. rewrite xdiv_by_zero by lra. reflexivity.
Qed.
