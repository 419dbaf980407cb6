(** Use of the value theorem: mass, leaf types, chunking, layer classes (proofs). *)
From Coq Require Import List Arith Bool Reals ZArith Lia Lra Sorted.
From Verif Require Import Base ScopeModel ScopeProofs RegionModel RegionSpec RegionProofs CircuitModel CircuitEval LeafModel LeafProofs LeafNorm Integral LayerModel PicModel PicSpec PicVisit PicMat PicShare TqModel TqSpec TqParam TqLevel TqVal TqStep TqBuild TqTop TqMass.
Import ListNotations.

Lemma bsum_div n (F : nat -> R) d : bsum n (fun i => F i / d)%R = (bsum n F / d)%R.
Proof. unfold Rdiv. rewrite Rmult_comm. rewrite <- bsum_scal. apply bsum_ext. intros i _. ring. Qed.

Section Use.
Variable root : region.
Variable cls : layer_cls.
Variable q : rule.
Variable eps : R.
Variable n_chunks : nat.
Variable L : nat -> nat -> list R -> R.
Variable mlog : nat -> nat -> nat -> nat -> R.
Hypothesis SO : forall r, reach root r -> sorted_scope (r_scope r).
Hypothesis RG : rg_ok root.
Hypothesis HN : (1 <= n_chunks).
Hypothesis HW : length (wts q) = length (pts q).
Hypothesis W0 : forall w, In w (wts q) -> (0 <= w)%R.
Hypothesis W1 : exists w, In w (wts q) /\ (0 < w)%R.
Hypothesis EP : (0 < eps)%R.
Hypothesis L0 : forall i f zs, (0 <= L i f zs)%R.
Hypothesis UV : univariate root.
Notation K := (length (pts q)).
Notation W := (qpc_weights q eps L mlog root).

Lemma normalise_sum (F : R -> R) : (forall z, 0 < F z)%R -> bsum K (normalise q F) = 1%R.
Proof.
  intros HF. unfold normalise. rewrite bsum_div. field. apply Rgt_not_eq, Rlt_gt. apply (wsum_pos q HW W0 W1 (fun i => F (nth i (pts q) 0%R))). intros i. apply HF.
Qed.
Lemma normalise2_sum (F : R -> R -> R) : (forall y z, 0 < F y z)%R -> bsum K (fun i => bsum K (fun j => normalise2 q F i j)) = 1%R.
Proof.
  intros HF. unfold normalise2. erewrite bsum_ext; [|intros i _; apply bsum_div]. rewrite bsum_div. unfold Rdiv. apply Rinv_r. apply Rgt_not_eq, Rlt_gt.
  rewrite (bsum_ext K _ (fun a => bsum K (fun b => F (nth a (pts q) 0) (nth b (pts q) 0) * nth b (wts q) 0) * nth a (wts q) 0)%R);
    [|intros a _; rewrite <- bsum_scal_r; apply bsum_ext; intros b _; ring].
  apply (wsum_pos q HW W0 W1 (fun a => bsum K (fun b => F (nth a (pts q) 0) (nth b (pts q) 0) * nth b (wts q) 0)))%R. intros a. apply (wsum_pos q HW W0 W1 (fun b => F (nth a (pts q) 0) (nth b (pts q) 0)))%R. intros b. apply HF.
Qed.
Lemma Leps i f zs : (0 < L i f zs + eps)%R.
Proof. pose proof (L0 i f zs). lra. Qed.
Lemma W_tk h s o : bsum K (fun i => bsum K (fun j => w_tk W h s i j o)) = 1%R.
Proof. cbn [qpc_weights w_tk]. destruct (Nat.eqb h (rdepth root) || Nat.eqb K 1)%bool; apply normalise2_sum; intros; apply Leps. Qed.
Lemma W_cp h s c o : bsum K (fun i => w_cp W h s c i o) = 1%R.
Proof. cbn [qpc_weights w_cp]. apply normalise_sum. intros; apply Leps. Qed.
Lemma W_mx m s n k : 1 <= n -> bsum n (fun j => w_mix W m s n j k) = 1%R.
Proof. intros Hn. cbn [qpc_weights w_mix]. exact (softmax_sum n (fun j => mlog m s j k) Hn). Qed.
Lemma K_pos : 1 <= K.
Proof. destruct W1 as (w & Hw & _). rewrite <- HW. destruct (wts q); [contradiction|cbn; lia]. Qed.

Lemma leaf_ext_reach (l1 l2 : scope -> nat -> R) r : reach root r -> (forall d, reach root d -> r_children d = [] -> forall k, l1 (r_scope d) k = l2 (r_scope d) k) ->
  forall k, tval root cls K W l1 r k = tval root cls K W l2 r k.
Proof.
  intros Hr H. revert Hr. induction r as [r IH] using region_ind_size. intros Hr k. destruct (r_children r) as [|p0 ps] eqn:EC.
  - rewrite !(tval_leaf root cls K W _ r EC). now apply H.
  - assert (NE : r_children r <> []) by (rewrite EC; discriminate). rewrite !(tval_node root cls K W _ r NE), !region_value_spec by exact NE.
    assert (HJ : forall j k, j < length (r_children r) -> nth j (pvals root cls K W l1 r) (fun _ => 0%R) k = nth j (pvals root cls K W l2 r) (fun _ => 0%R) k).
    { intros j k' Hj. destruct (nth_error (r_children r) j) as [p|] eqn:Ep; [|apply nth_error_None in Ep; lia]. rewrite !(pvals_nth root cls K W _ r j p Ep).
      apply part_value_ext. assert (Hp : In p (r_children r)) by (eapply nth_error_In; exact Ep). assert (HI : forall d, In d p -> is_child d r) by (intros d Hd; exists p; now split). clear Ep Hp. induction p as [|d p IHp]; cbn [map]; constructor; [|apply IHp; intros e He; apply HI; now right].
      intros a _. apply IH; [apply HI; now left|econstructor; [exact Hr|apply HI; now left]]. }
    destruct (several r); [apply bsum_ext; intros j Hj; now rewrite HJ|]. apply HJ. rewrite EC. cbn. lia.
Qed.

(** a row with missing entries filled in *)
Definition obs (y : row) (v : nat) : R := match y v with Some a => a | None => 0%R end.
Theorem qpc_total D lf (f : row -> lval) x : r_children root <> [] ->
  (forall y, log_likelihood q eps n_chunks L mlog root 1 cls lf (obs y) = Ok (f y)) ->
  (forall v k, In v (query (r_scope root)) -> k < K -> sums (D v) (fun a => exp (lf (var_rank root v) k a)) 1%R) ->
  sums_over D (query (r_scope root)) (fun y => pr (f y)) x 1%R.
Proof.
  intros NE HF FD.
  pose proof (tv_total root cls K W D (fun v k a => exp (lf (var_rank root v) k a)) SO RG UV K_pos W_tk W_cp W_mx FD x NE) as T.
  eapply (sums_over_obs D (query (r_scope root)) []); [intros v []| |exact T].
  intros y Hy. cbn [app] in Hy. cbv beta.
  destruct (log_likelihood_ok root cls q eps n_chunks L mlog SO RG HN HW W0 W1 EP L0 UV lf (obs y) NE) as (v & E & P). rewrite HF in E. injection E as <-. rewrite P.
  apply leaf_ext_reach; [apply reach_root|]. intros d Hd Hc k. unfold leaf_value, leafm, obs. cbv zeta.
  assert (HV : In (hd 0 (query (r_scope d))) (query (r_scope root))) by (apply (reach_query root RG d Hd); rewrite (leaf_var root UV d Hd Hc) at 2; now left).
  specialize (Hy _ HV). destruct (y (hd 0 (query (r_scope d)))); [reflexivity|contradiction].
Qed.
End Use.

(** ** leaf types *)
Lemma softplus_pos a : (0 < softplus a)%R.
Proof. unfold softplus. rewrite <- ln_1. apply ln_increasing; [lra|]. pose proof (exp_pos a). lra. Qed.
Lemma normal_mass par : sums DReal (fun a => exp (leaf_ll LNormal par a)) 1%R.
Proof.
  eapply sums_ext; [|exact (normal_norm (par 0) (ln (softplus (par 1) + / 10 ^ 6)))]. intros a. unfold fam_lp, leaf_ll. cbv zeta. cbn [supp lp_formula]. unfold pr.
  rewrite exp_ln; [reflexivity|]. pose proof (softplus_pos (par 1)). assert (0 < / 10 ^ 6)%R by (apply Rinv_0_lt_compat; apply pow_lt; lra). lra.
Qed.
Lemma bernoulli_mass par : sums (DFin [0%R; 1%R]) (fun a => exp (leaf_ll LBernoulli par a)) 1%R.
Proof.
  cbn [sums map lsumR leaf_ll]. unfold softplus. rewrite Rmult_0_l, Rmult_1_l. unfold Rminus. rewrite !exp_plus, !exp_Ropp, exp_0. pose proof (exp_pos (par 0)). rewrite exp_ln by lra. field. lra.
Qed.
Lemma categorical_mass C par : 1 <= C -> sums (DFin (map INR (seq 0 C))) (fun a => exp (leaf_ll (LCategorical C) par a)) 1%R.
Proof.
  intros HC. cbn [sums]. rewrite map_map. rewrite <- (softmax_sum C par) by lia. rewrite <- lsum_seq. f_equal. apply map_ext_in. intros i Hi. apply in_seq in Hi.
  cbn [leaf_ll]. rewrite Int_part_INR, Nat2Z.id, Nat.min_r by lia. apply exp_log_softmax. lia.
Qed.
