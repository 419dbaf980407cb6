(** Bias-corrected estimates of the log-normal leaf. *)
From Coq Require Import List Arith Bool Reals Lra Lia.
From Verif Require Import Base ScopeModel CircuitModel CircuitEval Integral LeafModel LeafSpec LeafTop MleModel MleSpec MleProofs MleProofs2 MleTop LogNormalModel LogNormalProofs LogNormalMle.
Import ListNotations.
Local Open Scope R_scope.

Lemma logs_ones vals : map (fun p : R * R => (fst p, ln (snd p))) (map (fun a => (1, a)) vals) = map (fun a => (1, a)) (map ln vals).
Proof. rewrite !map_map. reflexivity. Qed.

Lemma ln_bias_corrected ulp vals : (forall a, In a vals -> 0 < a) -> (exists a b, In a vals /\ In b vals /\ a <> b) ->
  exists ls, ln_stored (est_lognormal ulp true (XR 1) (map (fun a => (1, a)) vals)) = Some (mkLN (mean (map ln vals)) ls) /\
    exp ls ^ 2 = unbiased_var (map ln vals).
Proof.
  intros HP HD. set (lv := map ln vals).
  assert (1 < INR (length lv)) as P1.
  { unfold lv. rewrite map_length. change 1 with (INR 1). apply lt_INR. destruct HD as (a & b & Ia & Ib & N).
    destruct vals as [|u [|v vs]]; cbn in *; try lia; intuition congruence. }
  set (n := INR (length lv)) in *.
  assert (0 < lsumR (map (fun a => (a - mean lv) ^ 2) lv)) as PV.
  { rewrite <- Sdev_ones. apply Sdev_pos.
    - apply Forall_forall. intros p Hp. apply in_map_iff in Hp. destruct Hp as (a & <- & _). cbn. lra.
    - destruct HD as (a & b & Ha & Hb & N). exists (ln a), (ln b). split; [intros E; apply N, ln_inv; auto|].
      split; [exists (1, ln a)|exists (1, ln b)]; (split; [apply in_map_iff; eexists; split; [reflexivity|now apply in_map]|reflexivity]). }
  exists (ln (sqrt (unbiased_var lv))).
  assert (0 < unbiased_var lv) as PU by (unfold unbiased_var; apply Rdiv_lt_0_compat; [assumption|fold n; lra]).
  split.
  - unfold est_lognormal. rewrite logs_ones. fold lv. rewrite S0_ones, S1_ones. fold n. cbn [xmul].
    rewrite xdiv_R by lra. replace (1 * lsumR lv / (1 * n)) with (mean lv) by (unfold mean; fold n; field; lra).
    rewrite Sdev_ones. cbn [xmul xsub xadd xneg]. rewrite xdiv_R by lra.
    replace (1 * lsumR (map (fun a => (a - mean lv) ^ 2) lv) / (1 * n + - (1))) with (unbiased_var lv) by (unfold unbiased_var; fold n; field; lra).
    cbn [xsqrt]. unfold rlt. destruct (Rlt_dec (unbiased_var lv) 0); [lra|].
    pose proof (sqrt_lt_R0 _ PU). rewrite edge_lb_in by assumption. unfold ln_stored, ln_store. cbn [fst snd]. now rewrite xlog_pos.
  - rewrite exp_ln by now apply sqrt_lt_R0. rewrite <- Rsqr_pow2. apply Rsqr_sqrt. lra.
Qed.
