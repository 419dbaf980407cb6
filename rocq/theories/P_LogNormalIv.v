(** C317, C318: interval evidence on a log-normal leaf. *)
From Coq Require Import List Arith Bool Reals Lra Lia.
From Coquelicot Require Import Coquelicot.
From Verif Require Import Base CircuitModel CircuitEval Integral LeafModel LeafNorm IvModel IvSpec IvProofs LogNormalModel LogNormalProofs LogNormalIvModel.
Local Open Scope R_scope.

(** what torch's cdf accepts: +inf and the non-negative numbers *)
Definition non_negative (a : fl) : Prop := match a with Num x => 0 <= x | Pinf => True | _ => False end.

Lemma lognormal_cdf_G p a : non_negative a -> lognormal_cdf p a = Ok (Gx (ln_G p) 0 1 a).
Proof.
  intros H. destruct a as [| | |x]; try contradiction; cbn [lognormal_cdf Gx].
  - rewrite normal_cdf_G by discriminate. cbn [Gx]. f_equal. lra.
  - cbn in H. destruct (Rlt_dec x 0); [lra|]. unfold ln_G. destruct (Req_EM_T x 0) as [e|ne].
    + rewrite normal_cdf_G by discriminate. cbn [Gx]. destruct (Rle_dec x 0); [|lra]. f_equal. lra.
    + rewrite normal_cdf_G by discriminate. cbn [Gx]. destruct (Rle_dec x 0); [lra|]. reflexivity.
Qed.

(** C317: for a lower bound that is a non-negative number (or +inf) and an upper
    bound that is one or absent, the interval log-likelihood is the logarithm of
    the probability of the interval, or of 1e-40 when that is larger. *)
Theorem C317_interval : forall p lo hi, non_negative lo -> (hi = Nan \/ non_negative hi) ->
  exists v m, ln_iv p lo hi = Ok (Fin v) /\ box_mass DReal (fun a => pr (ln_lp p a)) (lo, hi) m /\ exp v = Rmax m (/ 10 ^ 40).
Proof.
  intros p lo hi Hl Hh.
  assert (0 < / 10 ^ 40) as E by (apply Rinv_0_lt_compat, pow_lt; lra).
  assert (nan_to Minf lo = lo) as El by (destruct lo; [contradiction| | |]; reflexivity).
  assert (non_negative (nan_to Pinf hi)) as Eh by (destruct Hh as [-> |Hh]; [exact I|destruct hi; [contradiction| | |]; exact Hh]).
  set (d := Gx (ln_G p) 0 1 (nan_to Pinf hi) - Gx (ln_G p) 0 1 lo).
  exists (ln (clamp40 d)), (Rmax 0 d). split; [|split].
  - unfold ln_iv, base_iv. rewrite El, !lognormal_cdf_G by assumption. reflexivity.
  - pose proof (box_antid (dens p) (ln_G p) 0 1 lo hi (ln_antid p) (dens_nonneg p)) as B. rewrite El in B. exact B.
  - unfold clamp40. rewrite exp_ln.
    + set (e := / 10 ^ 40) in *. clearbody e. destruct (Rle_dec 0 d) as [P|P].
      * now rewrite (Rmax_right 0 d) by assumption.
      * rewrite (Rmax_left 0 d) by lra. rewrite !Rmax_right by lra. reflexivity.
    + eapply Rlt_le_trans; [exact E|apply Rmax_r].
Qed.
Print Assumptions C317_interval.

Example C317_nonvacuous : non_negative (Num 0) /\ (Nan = Nan \/ non_negative Nan).
Proof. split; [cbn; lra|now left]. Qed.

(** C318 (refuted): a missing bound means the side is unbounded.  Without a lower
    bound the call raises, for all parameters and upper bounds; so it does for a
    negative bound, whose interval has a well-defined probability. *)
Theorem C318_no_lower_bound : forall p hi, ln_iv p Nan hi = Err.
Proof. intros p hi. unfold ln_iv, base_iv. cbn [nan_to]. destruct (lognormal_cdf p (nan_to Pinf hi)); reflexivity. Qed.
Print Assumptions C318_no_lower_bound.

Theorem C318_negative_bound : forall p x hi, x < 0 -> ln_iv p (Num x) hi = Err.
Proof.
  intros p x hi H. unfold ln_iv, base_iv. cbn [nan_to]. destruct (lognormal_cdf p (nan_to Pinf hi)); [|reflexivity].
  cbn [bind lognormal_cdf]. destruct (Rlt_dec x 0); [reflexivity|lra].
Qed.
Print Assumptions C318_negative_bound.

Definition unbounded_sides : Prop := forall p lo hi, exists v m,
  ln_iv p lo hi = Ok (Fin v) /\ box_mass DReal (fun a => pr (ln_lp p a)) (lo, hi) m /\ exp v = Rmax m (/ 10 ^ 40).
Theorem C318_unbounded_refuted : ~ unbounded_sides.
Proof. intros H. destruct (H (mkLN 0 0) Nan Nan) as (v & m & E & _). rewrite C318_no_lower_bound in E. discriminate. Qed.
Print Assumptions C318_unbounded_refuted.
