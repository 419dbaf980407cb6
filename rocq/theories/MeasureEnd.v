(** Monte-Carlo estimators, conditional probabilities and the weight of evidence. *)
From Coq Require Import List Arith Bool Lia Lra FunctionalExtensionality Permutation.
From Verif Require Import Base ScopeModel ScopeProofs CircuitModel CircuitSpec CircuitBasics CircuitEval Integral CircuitMarg CircuitProps MeasureModel MeasureProofs MeasureTop MeasureMain LayerProofs SampleSpec SampleApi.
Import ListNotations.
Local Open Scope R_scope.

(** expectation over [n] independent rows *)
Fixpoint expect (E : (row -> R) -> R) (n : nat) (F : list row -> R) : R :=
  match n with
  | O => F []
  | S n => E (fun w => expect E n (fun ws => F (w :: ws)))
  end.
(** one row with probabilities [J] over the assignments to [vs] *)
Definition law (K : nat -> nat) (vs : list nat) (J : row -> R) (f : row -> R) : R := gsum K vs (fun w => J w * f w) (fun _ => None).

Section Law.
Variables (K : nat -> nat) (vs : list nat) (J : row -> R).
Hypothesis Jpos : forall x, 0 <= J x.
Hypothesis Jtot : gsum K vs J (fun _ => None) = 1.
Notation E := (law K vs J).

Lemma law_ext f g : (forall w, reach K vs (fun _ => None) w -> 0 < J w -> f w = g w) -> E f = E g.
Proof. intros H. apply gs_ext_in. intros w Hw. destruct (Jpos w) as [P|<-]; [|ring]. now rewrite H. Qed.
Lemma law_plus f g : E (fun w => f w + g w) = E f + E g.
Proof. unfold law. rewrite <- gs_plus. apply gs_ext. intros. ring. Qed.
Lemma law_scal k f : E (fun w => k * f w) = k * E f.
Proof. unfold law. rewrite <- gs_scal. apply gs_ext. intros. ring. Qed.
Lemma law_const k : E (fun _ => k) = k.
Proof. unfold law. rewrite (gs_ext K vs _ (fun w => k * J w)) by (intros; ring). rewrite gs_scal, Jtot. ring. Qed.
Lemma expect_ext n F G : (forall ws, length ws = n -> Forall (fun w => reach K vs (fun _ => None) w /\ 0 < J w) ws -> F ws = G ws) -> expect E n F = expect E n G.
Proof.
  revert F G. induction n as [|n IH]; intros F G H; cbn [expect]; [apply H; [reflexivity|constructor]|]. apply law_ext. intros w Hw Pw. apply IH. intros ws Hl Hf. apply H; [cbn; congruence|now constructor].
Qed.
Lemma expect_const n k : expect E n (fun _ => k) = k.
Proof. induction n as [|n IH]; cbn [expect]; [reflexivity|]. rewrite (law_ext _ (fun _ => k)) by (intros; apply IH). apply law_const. Qed.
Lemma expect_plus n F G : expect E n (fun ws => F ws + G ws) = expect E n F + expect E n G.
Proof. revert F G. induction n as [|n IH]; intros F G; cbn [expect]; [reflexivity|]. rewrite <- law_plus. apply law_ext. intros. apply IH. Qed.
Lemma expect_scal n k F : expect E n (fun ws => k * F ws) = k * expect E n F.
Proof. revert F. induction n as [|n IH]; intros F; cbn [expect]; [reflexivity|]. rewrite <- law_scal. apply law_ext. intros. apply IH. Qed.
Lemma expect_sum n f : expect E n (fun ws => lsumR (map f ws)) = INR n * E f.
Proof.
  induction n as [|n IH]; cbn [expect]; [cbn; ring|]. rewrite (law_ext _ (fun w => f w + INR n * E f)).
  - rewrite law_plus, law_const, S_INR. ring.
  - intros w _ _. cbn [map]. rewrite (expect_ext n _ (fun ws => f w + lsumR (map f ws))) by reflexivity. rewrite expect_plus, expect_const, IH. reflexivity.
Qed.
Lemma expect_mean n f : (1 <= n)%nat -> expect E n (fun ws => lsumR (map f ws) / INR n) = E f.
Proof.
  intros Hn. assert (0 < INR n) by (apply lt_0_INR; lia). rewrite (expect_ext n _ (fun ws => / INR n * lsumR (map f ws))) by (intros; unfold Rdiv; ring). rewrite expect_scal, expect_sum. field. lra.
Qed.
End Law.

(** the number an estimate shows when it is finite *)
Definition value (o : option R) : R := match o with Some a => a | None => 0 end.

Lemma osum_some {A} (f : A -> option R) g l : Forall (fun a => f a = Some (g a)) l -> osum (map f l) = Some (lsumR (map g l)).
Proof. induction 1 as [|a l E _ IH]; [reflexivity|]. cbn [map osum]. rewrite E, IH. reflexivity. Qed.
Lemma omean_some {A} (f : A -> option R) g l : Forall (fun a => f a = Some (g a)) l -> omean (map f l) = Some (lsumR (map g l) / INR (length l)).
Proof. intros H. unfold omean. rewrite (osum_some f g l H), map_length. reflexivity. Qed.

Section MC.
Variable kind : leaf -> option nat.
Variables (ca ra : agg) (m : module) (s : shape) (D : nat -> domain).
Hypothesis B : built m.
Hypothesis A : aligned m.
Hypothesis N : leaves_norm D m.
Hypothesis L : ll_shape m = Ok s.
Hypothesis RP : (0 < repetitions s)%nat.
Hypothesis KD : forall l k v, In l (leaves_of m) -> kind l = Some k -> In v (query (l_scope l)) -> D v = DFin (map INR (seq 0 k)).
Notation P := (marg ca ra m s).
Notation K := (states kind m).
Notation V := (query (scope_of m)).

(** ** conditional probabilities *)
Lemma Psum v x : okv kind m v -> bsum (K v) (fun a => P (upd x v (Some (INR a)))) = P (upd x v None).
Proof. now apply (P_sum kind ca ra m s D). Qed.

Lemma cp_none y yv e : conditional_probability ca ra m s y yv e = None <-> P (upd e y None) = 0.
Proof.
  unfold conditional_probability, marg. destruct (reduce_ll ca ra s (loglik m (upd e y None))) as [|b]; cbn [pr]; split; intros H; try reflexivity; try discriminate.
  pose proof (exp_pos b). lra.
Qed.
Lemma cp_some y yv e p : conditional_probability ca ra m s y yv e = Some p <-> 0 < P (upd e y None) /\ p = P (upd e y (Some yv)) / P (upd e y None).
Proof.
  unfold conditional_probability, marg. destruct (reduce_ll ca ra s (loglik m (upd e y None))) as [|b]; cbn [pr]; [split; [discriminate|intros [? _]; lra]|].
  assert (E : match reduce_ll ca ra s (loglik m (upd e y (Some yv))) with NInf => 0 | Fin a => exp (a - b) end = pr (reduce_ll ca ra s (loglik m (upd e y (Some yv)))) / exp b).
  { destruct (reduce_ll ca ra s (loglik m (upd e y (Some yv)))) as [|a]; cbn [pr]; [unfold Rdiv; ring|]. unfold Rminus, Rdiv. rewrite exp_plus, exp_Ropp. reflexivity. }
  rewrite E. split; [intros H; injection H as <-; split; [apply exp_pos|reflexivity]|intros [_ ->]; reflexivity].
Qed.
Lemma cp_le y a e : okv kind m y -> (a < K y)%nat -> P (upd e y (Some (INR a))) <= P (upd e y None).
Proof.
  intros Hy Ha. rewrite <- (Psum y e Hy). apply (bsum_term_le (K y) (fun a => P (upd e y (Some (INR a))))); [exact Ha|]. intros; apply pr_nonneg.
Qed.
Lemma cp_range y a e p : okv kind m y -> (a < K y)%nat -> conditional_probability ca ra m s y (INR a) e = Some p -> 0 <= p <= 1.
Proof.
  intros Hy Ha H. apply cp_some in H. destruct H as [H ->]. pose proof (cp_le y a e Hy Ha). pose proof (pr_nonneg (reduce_ll ca ra s (loglik m (upd e y (Some (INR a)))))) as G. fold (P (upd e y (Some (INR a)))) in G.
  split; [apply Rmult_le_pos; [exact G|left; now apply Rinv_0_lt_compat]|]. apply Rmult_le_reg_r with (P (upd e y None)); [exact H|]. unfold Rdiv. rewrite Rmult_assoc, Rinv_l by lra. lra.
Qed.
Lemma cp_total y e : okv kind m y -> 0 < P (upd e y None) -> bsum (K y) (fun a => value (conditional_probability ca ra m s y (INR a) e)) = 1.
Proof.
  intros Hy HP. rewrite (bsum_ext _ _ (fun a => P (upd e y (Some (INR a))) * / P (upd e y None))).
  - rewrite bsum_scal_r, (Psum y e Hy). field. lra.
  - intros a _. rewrite (proj2 (cp_some y (INR a) e _) (conj HP eq_refl)). reflexivity.
Qed.

(** ** Monte Carlo *)
Hypothesis AC : averages ca (channels s).
Hypothesis AR : averages ra (repetitions s).
Hypothesis OK : forall v, vars m v -> okv kind m v.

Lemma NDV : NoDup V. Proof. apply (wf_scope m (wf_wf1 m (built_wf m B))). Qed.
Lemma Fv q : incl q V -> Forall (okv kind m) q.
Proof. intros H. apply Forall_forall. intros v Hv. apply OK, H, Hv. Qed.
Lemma tot : gsum K V P (fun _ => None) = 1.
Proof.
  apply (gs_total K P (okv kind m)); [exact Psum|now apply marg_one|exact NDV|apply Fv, incl_refl].
Qed.
Lemma Ppos x : 0 <= P x. Proof. apply pr_nonneg. Qed.

Lemma restrict q w : incl q V -> reach K V (fun _ => None) w -> (fun v => if memb v q then w v else None) = set_nan (filter (fun v => negb (memb v q)) V) w.
Proof.
  intros Hq Hw. apply functional_extensionality. intros v. destruct (memb v q) eqn:E.
  - rewrite set_nan_out; [reflexivity|]. intros H. apply filter_In in H. rewrite E in H. destruct H. discriminate.
  - destruct (in_dec Nat.eq_dec v V) as [I|NI].
    + rewrite set_nan_in; [reflexivity|]. apply filter_In. now rewrite E.
    + rewrite set_nan_out by (intros H; apply filter_In in H; now apply NI). symmetry. now rewrite (reach_other K V _ w v Hw NI).
Qed.
Lemma split_perm q : NoDup q -> incl q V -> Permutation V (q ++ filter (fun v => negb (memb v q)) V).
Proof.
  intros Nq Hq. apply NoDup_Permutation; [exact NDV| |].
  - apply NoDup_app_intro; [exact Nq|apply NoDup_filter, NDV|]. intros v Hv H. apply filter_In in H. destruct H as [_ H]. rewrite (proj2 (memb_In v q) Hv) in H. discriminate.
  - intros v. rewrite in_app_iff, filter_In. split; [|intros [H|H]; [now apply Hq|apply H]]. intros Hv. destruct (memb v q) eqn:E; [left; now apply memb_In|right; split; [exact Hv|reflexivity]].
Qed.
Lemma row_mean q : NoDup q -> incl q V -> law K V P (fun w => ln (P (fun v => if memb v q then w v else None))) = - H K P q.
Proof.
  intros Nq Hq. set (T := filter (fun v => negb (memb v q)) V). unfold law.
  rewrite (gs_ext_in K V _ (fun w => P w * ln (P (set_nan T w)))) by (intros w Hw; now rewrite (restrict q w Hq Hw)).
  pose proof (split_perm q Nq Hq) as PM. fold T in PM. rewrite (gs_perm K V (q ++ T) _ _ PM NDV).
  rewrite (H_ext K P (okv kind m) Psum q T); [ring| |].
  - eapply Permutation_NoDup; [exact PM|exact NDV].
  - apply Forall_forall. intros v Hv. apply OK. eapply Permutation_in; [apply Permutation_sym; exact PM|exact Hv].
Qed.
Lemma row_pos q w : incl q V -> reach K V (fun _ => None) w -> 0 < P w -> lreal (ll_for ca ra m s q w) = Some (ln (P (fun v => if memb v q then w v else None))).
Proof.
  intros Hq Hw Pw. assert (0 < P (fun v => if memb v q then w v else None)) as H.
  { rewrite (restrict q w Hq Hw). set (T := filter (fun v => negb (memb v q)) V).
    assert (R2 : reach K T (set_nan T w) w).
    { assert (forall X' x', (forall v, In v X' -> In v V) -> (forall v, ~ In v X' -> x' v = w v) -> reach K X' x' w) as KK.
      { induction X' as [|x X' IH]; intros x' H1 H2.
        - assert (x' = w) as -> by (apply functional_extensionality; intros v; now apply H2). constructor.
        - destruct (reach_in K V _ w x Hw NDV (H1 x ltac:(now left))) as (a & Ha & Ea). apply (r_cons K x X' x' w a Ha). apply IH; [intros v Hv; apply H1; now right|].
          intros v Nv. unfold upd. destruct (Nat.eqb_spec v x) as [->|Nx]; [now rewrite Ea|]. apply H2. intros [<-|Hv]; [congruence|contradiction]. }
      apply KK; [intros v Hv; apply filter_In in Hv; apply Hv|]. intros v Nv. now apply set_nan_out. }
    pose proof (gs_le_marg K P (okv kind m) Ppos Psum T (set_nan T w) w) as G. replace (set_nan T (set_nan T w)) with (set_nan T w) in G.
    - eapply Rlt_le_trans; [exact Pw|]. apply G; [apply NoDup_filter, NDV|apply Fv; intros v Hv; apply filter_In in Hv; apply Hv|exact R2].
    - symmetry. apply set_nan_id. intros v Hv. now apply set_nan_in. }
  revert H. unfold marg, ll_for. destruct (reduce_ll ca ra s (loglik m (fun v => if memb v q then w v else None))) as [|a]; cbn [pr]; intros H; [lra|]. cbn [lreal]. now rewrite ln_exp.
Qed.

Lemma mc_entropy_mean q n : NoDup q -> incl q V -> (1 <= n)%nat ->
  expect (law K V P) n (fun ws => value (mc_entropy ca ra m s q ws)) = H K P q.
Proof.
  intros Nq Hq Hn. set (f := fun w : row => ln (P (fun v => if memb v q then w v else None))).
  rewrite (expect_ext K V P Ppos n _ (fun ws => (-1) * (lsumR (map f ws) / INR n))).
  - rewrite (expect_scal K V P Ppos), (expect_mean K V P Ppos tot n f Hn). unfold f. rewrite (row_mean q Nq Hq). ring.
  - intros ws Hl Hf. unfold mc_entropy. rewrite (omean_some _ f ws); [cbn [value]; rewrite Hl; ring|]. eapply Forall_impl; [|exact Hf]. intros w [H1 H2]. now apply row_pos.
Qed.
Lemma mc_mi_mean x y n : NoDup (x ++ y) -> incl (x ++ y) V -> (1 <= n)%nat ->
  expect (law K V P) n (fun ws => value (mc_mutual_information ca ra m s x y ws)) = H K P x + H K P y - H K P (x ++ y).
Proof.
  intros Nq Hq Hn. set (f q := fun w : row => ln (P (fun v => if memb v q then w v else None))).
  assert (Hx : incl x V) by (intros v Hv; apply Hq, in_or_app; now left). assert (Hy : incl y V) by (intros v Hv; apply Hq, in_or_app; now right).
  assert (Nx : NoDup x /\ NoDup y).
  { clear -Nq. induction x as [|a x IH]; [split; [constructor|exact Nq]|]. inversion Nq as [|? ? N1 N2]; subst. destruct (IH N2). split; [constructor; [intros C; apply N1, in_or_app; now left|assumption]|assumption]. }
  destruct Nx as [Nx Ny]. set (g := fun w => f (x ++ y) w + ((-1) * f x w + (-1) * f y w)).
  rewrite (expect_ext K V P Ppos n _ (fun ws => lsumR (map g ws) / INR n)).
  - rewrite (expect_mean K V P Ppos tot n g Hn). unfold g. rewrite !law_plus, !law_scal. unfold f. rewrite (row_mean (x ++ y) Nq Hq), (row_mean x Nx Hx), (row_mean y Ny Hy). ring.
  - intros ws Hl Hf. unfold mc_mutual_information. rewrite (omean_some _ g ws); [cbn [value]; now rewrite Hl|]. eapply Forall_impl; [|exact Hf]. intros w [H1 H2].
    rewrite (row_pos (x ++ y) w Hq H1 H2), (row_pos x w Hx H1 H2), (row_pos y w Hy H1 H2). cbn [osub]. f_equal. unfold g, f. ring.
Qed.
End MC.

(** channel 0 and repetition 0 are what is read *)
Definition reads_first (a : agg) (n : nat) : Prop := n = 1%nat \/ a = First.
Lemma reads_first_averages a n : reads_first a n -> averages a n.
Proof. intros [H|H]; [now left|right; congruence]. Qed.
Lemma marg_joint ca ra m s : built m -> ll_shape m = Ok s -> reads_first ca (channels s) -> reads_first ra (repetitions s) -> forall x, marg ca ra m s x = joint m x.
Proof.
  intros B L H1 H2 x. destruct (ll_shape_spec m s (built_wf m B) L) as (E1 & _ & _).
  assert (RF : forall a n t, reads_first a n -> reduce_over a n t = t 0%nat).
  { intros a n t [->| ->]; unfold reduce_over; [reflexivity|]. now destruct (Nat.eqb n 1). }
  unfold marg, reduce_ll. rewrite !RF by assumption. rewrite pr_ladds, E1. reflexivity.
Qed.

(** ** weight of evidence *)
Lemma clamp_range eps p : 0 < eps < 1 / 2 -> eps <= clamp eps p <= 1 - eps.
Proof. intros H. unfold clamp. pose proof (Rmax_r p eps). split; [apply Rmin_glb; lra|apply Rmin_r]. Qed.
Lemma clamp_le eps p q : p <= q -> clamp eps p <= clamp eps q.
Proof. intros H. unfold clamp. apply Rle_min_compat_r. now apply Rle_max_compat_r. Qed.
Lemma logit_le p q : 0 < p -> q < 1 -> p <= q -> logit p <= logit q.
Proof.
  intros H1 H2 H3. unfold logit. assert (p / (1 - p) <= q / (1 - q)) as H.
  { replace (p / (1 - p)) with (/ (1 - p) - 1) by (field; lra). replace (q / (1 - q)) with (/ (1 - q) - 1) by (field; lra). assert (/ (1 - p) <= / (1 - q)); [|lra]. apply Rinv_le_contravar; lra. }
  destruct H as [H|H]; [|rewrite H; lra]. left. apply ln_increasing; [apply Rdiv_lt_0_compat; lra|exact H].
Qed.
Lemma laplace_le n k p q : (1 <= n)%nat -> p <= q -> laplace n k p <= laplace n k q.
Proof.
  intros Hn H. unfold laplace. assert (1 <= INR n) by (now apply (le_INR 1)). pose proof (pos_INR k). apply Rmult_le_compat_r; [left; apply Rinv_0_lt_compat; lra|]. nra.
Qed.
Definition score (n k : nat) (eps p : R) : R := logit (clamp eps (laplace n k p)).
Lemma score_le n k eps p q : (1 <= n)%nat -> 0 < eps < 1 / 2 -> p <= q -> score n k eps p <= score n k eps q.
Proof.
  intros Hn He H. pose proof (clamp_range eps (laplace n k p) He). pose proof (clamp_range eps (laplace n k q) He). apply logit_le; [lra|lra|]. now apply clamp_le, laplace_le.
Qed.
Lemma logit_compl eps : 0 < eps < 1 -> logit (1 - eps) = - logit eps.
Proof. intros H. unfold logit. replace ((1 - eps) / (1 - (1 - eps))) with (/ (eps / (1 - eps))) by (field; lra). apply ln_Rinv. apply Rdiv_lt_0_compat; lra. Qed.
Lemma score_bound n k eps p : 0 < eps < 1 / 2 -> logit eps <= score n k eps p <= - logit eps.
Proof.
  intros He. pose proof (clamp_range eps (laplace n k p) He). unfold score. rewrite <- logit_compl by lra. split; apply logit_le; lra.
Qed.
Lemma woe_score ca ra m s n k eps y yv f g w : woe_row ca ra m s n k eps y yv f g = Some w <->
  exists p q, conditional_probability ca ra m s y yv f = Some p /\ conditional_probability ca ra m s y yv g = Some q /\ w = score n k eps p - score n k eps q.
Proof.
  unfold woe_row. destruct (conditional_probability ca ra m s y yv f) as [p|], (conditional_probability ca ra m s y yv g) as [q|]; split; try discriminate.
  - intros H. injection H as <-. exists p, q. auto.
  - intros (p' & q' & H1 & H2 & ->). injection H1 as <-. injection H2 as <-. reflexivity.
  - intros (? & ? & _ & ? & _). discriminate.
  - intros (? & ? & ? & _). discriminate.
  - intros (? & ? & ? & _). discriminate.
Qed.
Lemma cp_ignores ca ra m s y yv e o : conditional_probability ca ra m s y yv (upd e y o) = conditional_probability ca ra m s y yv e.
Proof.
  assert (Z : forall o', upd (upd e y o) y o' = upd e y o') by (intros o'; apply functional_extensionality; intros v; unfold upd; destruct (Nat.eqb v y); reflexivity).
  unfold conditional_probability. now rewrite !Z.
Qed.
