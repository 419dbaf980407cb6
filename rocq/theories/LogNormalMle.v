(** The stored estimates maximise the log-normal likelihood; log_likelihood of a row. *)
From Coq Require Import List Arith Bool Reals Lra Lia.
From Verif Require Import Base ScopeModel CircuitModel CircuitEval Integral LeafModel LeafSpec LeafTop MleModel MleProofs MleProofs2 LogNormalModel LogNormalProofs.
Import ListNotations.
Local Open Scope R_scope.

(** weighted log-likelihood of (weight, value) samples: the sum of the weighted
    logarithms of the densities *)
Definition ln_wll (p : lognormal) (l : list (R * R)) : R := lsumR (map (fun q => fst q * ln (dens p (snd q))) l).

Definition logs (l : list (R * R)) := map (fun q => (fst q, ln (snd q))) l.

Lemma ln_wll_normal p l : Forall (fun q => 0 < snd q) l ->
  ln_wll p l = wll (FNormal (ln_loc p) (ln_log_scale p)) (logs l) - lsumR (map (fun q => fst q * ln (snd q)) l).
Proof.
  unfold ln_wll, wll, logs. intros F. induction F as [|q l Hq F IH]; [cbn [map lsumR]; ring|].
  cbn [map lsumR]. rewrite IH. cbn [fst snd].
  replace (ln (dens p (snd q))) with (score (FNormal (ln_loc p) (ln_log_scale p)) (ln (snd q)) - ln (snd q)); [ring|].
  assert (score (FNormal (ln_loc p) (ln_log_scale p)) (ln (snd q)) - ln (snd q) = ln_log_prob p (snd q)) as -> by reflexivity.
  unfold dens, ln_lp, ln_supp, rlt. destruct (Rlt_dec 0 (snd q)); [|lra]. cbn [pr]. now rewrite ln_exp.
Qed.

Lemma ln_optimal ulp t l : 0 < t -> Forall (fun q => 0 < fst q /\ 0 < snd q) l ->
  (exists a b, a <> b /\ occurs (eq a) l /\ occurs (eq b) l) ->
  exists p, ln_stored (est_lognormal ulp false (XR t) l) = Some p /\ forall p', ln_wll p' l <= ln_wll p l.
Proof.
  intros Ht F (a & b & Nab & (qa & Ia & Ea) & (qb & Ib & Eb)).
  assert (0 < a /\ 0 < b) as [Pa Pb].
  { rewrite Forall_forall in F. pose proof (F _ Ia). pose proof (F _ Ib). rewrite Ea, Eb. tauto. }
  assert (l <> []) as NE by (intros ->; destruct Ia).
  assert (sample_ok (FNormal 0 0) (logs l)) as SO.
  { split; [unfold logs; destruct l; [congruence|discriminate]|]. unfold logs. apply Forall_map. eapply Forall_impl; [|exact F]. cbn. tauto. }
  assert (interior (FNormal 0 0) (logs l)) as IN.
  { exists (ln a), (ln b). split; [intros E; apply Nab, ln_inv; assumption|].
    split; [exists (fst qa, ln (snd qa))|exists (fst qb, ln (snd qb))]; (split; [unfold logs; now apply (in_map (fun q => (fst q, ln (snd q))))|cbn; congruence]). }
  destruct (opt_normal 0 0 ulp t (logs l) Ht SO IN) as (fm & Efm & SF & OP).
  destruct fm as [| | | | | | | | | |m ls]; try contradiction.
  exists (mkLN m ls). split.
  - unfold ln_stored, ln_store, est_lognormal. fold (logs l). unfold est_normal, stored_fam in Efm. cbn [store] in Efm. cbn [fst snd].
    destruct (xdiv (xmul (XR t) (XR (S1 (logs l)))) (xmul (XR t) (XR (S0 (logs l))))) as [| | |m0]; try discriminate.
    match goal with |- match ?z with _ => _ end = _ => idtac end.
    destruct (xlog (edge_cases ulp (xsqrt (xdiv (xmul (XR t) (XR (Sdev m0 (logs l)))) (xmul (XR t) (XR (S0 (logs l)))))) (Some 0) None)) as [| | |l0]; try discriminate.
    congruence.
  - intros p'. assert (Forall (fun q => 0 < snd q) l) as F2 by (eapply Forall_impl; [|exact F]; cbn; tauto).
    rewrite !ln_wll_normal by assumption. cbn [ln_loc ln_log_scale].
    pose proof (OP (FNormal (ln_loc p') (ln_log_scale p')) I). lra.
Qed.

(** log_likelihood *)
Lemma lnl_ll_spec l x : (0 < lnl_ch l)%nat -> (0 < lnl_rep l)%nat ->
  let vars := query (lnl_scope l) in
  ((exists v a, In v vars /\ x v = Some a /\ a <= 0) -> lnl_ll l x = Err) /\
  ((forall v a, In v vars -> x v = Some a -> 0 < a) -> exists t, lnl_ll l x = Ok t /\
     forall f c r, (f < length vars)%nat -> (c < lnl_ch l)%nat -> (r < lnl_rep l)%nat ->
       match x (nth f vars 0%nat) with
       | None => pr (t f c r) = 1
       | Some a => pr (t f c r) = dens (lnl_par l f c r) a
       end).
Proof.
  intros Hc Hr vars. split.
  - intros (v & a & Iv & Ex & La). unfold lnl_ll. fold vars.
    match goal with |- (if ?b then _ else _) = _ => assert (b = false) as ->; [|reflexivity] end.
    apply allb_false. destruct (In_nth _ _ 0%nat Iv) as (f & Hf & Ef). exists f. split; [assumption|].
    apply allb_false. exists 0%nat. split; [assumption|]. apply allb_false. exists 0%nat. split; [assumption|].
    unfold ln_imputed. fold vars. rewrite Ef, Ex. unfold ln_supp, rlt. destruct (Rlt_dec 0 a); [lra|reflexivity].
  - intros P. unfold lnl_ll. fold vars.
    match goal with |- exists _, (if ?b then _ else _) = _ /\ _ => assert (b = true) as -> end.
    { apply allb_true. intros f Hf. apply allb_true. intros _ _. apply allb_true. intros _ _.
      unfold ln_imputed. fold vars. unfold ln_supp, rlt, ln_supported_value.
      destruct (x (nth f vars 0%nat)) as [a|] eqn:E; [|destruct (Rlt_dec 0 1); [reflexivity|lra]].
      pose proof (P _ a (nth_In _ _ Hf) E). destruct (Rlt_dec 0 a); [reflexivity|lra]. }
    eexists. split; [reflexivity|]. intros f c r Hf _ _. cbv beta. destruct (x (nth f vars 0%nat)) as [a|] eqn:E.
    + pose proof (P _ a (nth_In _ _ Hf) E). unfold dens, ln_lp, ln_supp, rlt. destruct (Rlt_dec 0 a); [reflexivity|lra].
    + cbn. apply exp_0.
Qed.
