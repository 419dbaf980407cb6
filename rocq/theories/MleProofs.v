From Coq Require Import List Arith ZArith Bool Reals Lra Lia.
From Verif Require Import Base ScopeModel CircuitModel CircuitBasics CircuitEval Integral MargProofs LeafModel LeafSpec LeafProofs EmProofs MleModel.
Import ListNotations.
Local Open Scope R_scope.

(** ** extended arithmetic *)
Lemma rcmp_gt a b : b < a -> rcmp a b = Gt.
Proof. unfold rcmp. intros. destruct (total_order_T a b) as [[|]|]; lra || reflexivity. Qed.
Lemma rcmp_eq a : rcmp a a = Eq.
Proof. unfold rcmp. destruct (total_order_T a a) as [[|]|]; lra || reflexivity. Qed.

Lemma xlog_pos x : 0 < x -> xlog (XR x) = XR (ln x).
Proof. intros. cbn. now rewrite rcmp_gt. Qed.

Lemma xdiv_R x y : y <> 0 -> xdiv (XR x) (XR y) = XR (x / y).
Proof. intros. cbn. destruct (Req_EM_T y 0); [contradiction|reflexivity]. Qed.

Lemma ratio t a b : 0 < t -> 0 < b -> xdiv (xmul (XR t) (XR a)) (xmul (XR t) (XR b)) = XR (a / b).
Proof. intros. cbn [xmul]. rewrite xdiv_R; [|apply Rmult_integral_contrapositive; lra]. f_equal. field. lra. Qed.

Lemma xlogit_in p : 0 < p < 1 -> xlogit (XR p) = XR (ln (p / (1 - p))).
Proof.
  intros H. unfold xlogit. cbn [xsub xadd xneg]. rewrite xdiv_R by lra. rewrite xlog_pos.
  - f_equal. f_equal. f_equal; ring.
  - apply Rdiv_lt_0_compat; lra.
Qed.

Lemma base_eps_pos : 0 < base_eps < / 2.
Proof. unfold base_eps. lra. Qed.

Lemma rle_true a b : a <= b -> rle a b = true.
Proof. unfold rle. destruct (Rle_dec a b); tauto. Qed.
Lemma rle_false a b : b < a -> rle a b = false.
Proof. unfold rle. destruct (Rle_dec a b); [lra|reflexivity]. Qed.

Lemma edge_lb_in ulp x : 0 < x -> edge_cases ulp (XR x) (Some 0) None = XR x.
Proof. intros. unfold edge_cases. cbn. now rewrite rle_false. Qed.
Lemma edge_lb_0 ulp : edge_cases ulp (XR 0) (Some 0) None = XR (0 + Rmax base_eps ulp).
Proof. unfold edge_cases. cbn. rewrite rle_true; [reflexivity|lra]. Qed.
Lemma edge_in ulp x : 0 < x < 1 -> edge_cases ulp (XR x) (Some 0) (Some 1) = XR x.
Proof. intros. unfold edge_cases. cbn. rewrite rle_false by lra. cbn. now rewrite rle_false by lra. Qed.

(** whatever the estimate, with both bounds the result lies strictly inside *)
Lemma edge_both ulp e : ulp < / 2 -> exists p, edge_cases ulp e (Some 0) (Some 1) = XR p /\ 0 < p < 1.
Proof.
  intros Hu. pose proof base_eps_pos as Hb. unfold edge_cases. set (eps := Rmax base_eps ulp).
  assert (0 < eps < / 2) as He.
  { unfold eps. pose proof (Rmax_l base_eps ulp). split; [lra|]. apply Rmax_lub_lt; lra. }
  assert (forall e2, (exists q, e2 = XR q /\ 0 < q) \/ e2 = XPInf ->
    exists p, (if xge e2 1 then XR (1 - eps) else e2) = XR p /\ 0 < p < 1) as K.
  { intros e2 [(q & -> & Hq)| ->].
    - cbn. unfold rle. destruct (Rle_dec 1 q); eexists; (split; [reflexivity|lra]).
    - cbn. eexists; (split; [reflexivity|lra]). }
  apply K. clear K. destruct e as [| | |x]; cbn.
  - left. rewrite rle_false by lra. eexists; (split; [reflexivity|lra]).
  - now right.
  - left. eexists; (split; [reflexivity|lra]).
  - left. unfold rle. destruct (Rle_dec x 0); eexists; (split; [reflexivity|lra]).
Qed.

(** with a lower bound only: positive, unless infinite *)
Lemma edge_lb ulp e : e <> XPInf -> exists p, edge_cases ulp e (Some 0) None = XR p /\ 0 < p.
Proof.
  intros He. pose proof base_eps_pos as Hb. pose proof (Rmax_l base_eps ulp).
  unfold edge_cases. destruct e as [| | |x]; cbn; [| congruence | |].
  - rewrite rle_false by lra. eexists; (split; [reflexivity|lra]).
  - eexists; (split; [reflexivity|lra]).
  - unfold rle. destruct (Rle_dec x 0); eexists; (split; [reflexivity|lra]).
Qed.

(** ** sums over samples *)
Definition wpos (l : list (R * R)) := Forall (fun p => 0 < fst p) l.

Lemma S0_pos l : l <> [] -> wpos l -> 0 < S0 l.
Proof.
  intros Hn H. destruct l as [|p l]; [congruence|]. inversion H; subst. unfold S0. cbn.
  assert (0 <= lsumR (map fst l)).
  { apply lsumR_map_nonneg. intros q Hq. rewrite Forall_forall in H3. specialize (H3 q Hq). lra. }
  lra.
Qed.

Lemma wsum_nonneg (g : R -> R) l : wpos l -> (forall p, In p l -> 0 <= g (snd p)) -> 0 <= lsumR (map (fun p => fst p * g (snd p)) l).
Proof.
  intros H Hg. apply lsumR_map_nonneg. intros p Hp. unfold wpos in H. rewrite Forall_forall in H. specialize (H p Hp).
  apply Rmult_le_pos; [lra|auto].
Qed.

Lemma wsum_pos (g : R -> R) l q : wpos l -> (forall p, In p l -> 0 <= g (snd p)) -> In q l -> 0 < g (snd q) ->
  0 < lsumR (map (fun p => fst p * g (snd p)) l).
Proof.
  intros H Hg Hq Hp. unfold wpos in H. rewrite Forall_forall in H.
  pose proof (lsumR_term_le (fun p => fst p * g (snd p)) l q Hq) as T. cbn beta in T.
  assert (0 < fst q * g (snd q)) by (apply Rmult_lt_0_compat; auto).
  assert (fst q * g (snd q) <= lsumR (map (fun p => fst p * g (snd p)) l)); [|lra].
  apply T. intros y Hy. apply Rmult_le_pos; [specialize (H y Hy); lra|auto].
Qed.

Lemma S1_nonneg l : wpos l -> (forall p, In p l -> 0 <= snd p) -> 0 <= S1 l.
Proof. intros. apply (wsum_nonneg (fun a => a)); auto. Qed.
Lemma S1_pos l : wpos l -> (forall p, In p l -> 0 <= snd p) -> occurs (fun a => 0 < a) l -> 0 < S1 l.
Proof. intros H Hn (q & Hq & Hp). apply (wsum_pos (fun a => a) l q); auto. Qed.

Lemma S_lin (a b : R) l : lsumR (map (fun p => fst p * (a - b * snd p)) l) = a * S0 l - b * S1 l.
Proof.
  unfold S0, S1. rewrite <- !lsumR_map_scal. unfold Rminus. rewrite <- (Rmult_1_l (lsumR (map (fun p => b * _) l))).
  rewrite <- Ropp_mult_distr_l_reverse. rewrite <- lsumR_map_scal, <- lsumR_map_plus.
  apply lsumR_map_ext. intros; ring.
Qed.

Lemma S1_le a l : wpos l -> (forall p, In p l -> snd p <= a) -> S1 l <= a * S0 l.
Proof.
  intros H Ha. pose proof (wsum_nonneg (fun x => a - 1 * x) l H) as K. cbn beta in K. rewrite (S_lin a 1) in K.
  assert (0 <= a * S0 l - 1 * S1 l); [|lra]. apply K. intros p Hp. specialize (Ha p Hp). lra.
Qed.
Lemma S1_lt a l : wpos l -> (forall p, In p l -> snd p <= a) -> occurs (fun x => x < a) l -> S1 l < a * S0 l.
Proof.
  intros H Ha (q & Hq & Hlt). pose proof (wsum_pos (fun x => a - 1 * x) l q H) as K. cbn beta in K. rewrite (S_lin a 1) in K.
  assert (0 < a * S0 l - 1 * S1 l); [|lra]. apply K; auto; [intros p Hp; specialize (Ha p Hp); lra|lra].
Qed.

(** scores affine in the sample *)
Lemma wll_affine fm (A B : R) (h : R -> R) l : Forall (fun p => score fm (snd p) = A * snd p + B + h (snd p)) l ->
  wll fm l = A * S1 l + B * S0 l + lsumR (map (fun p => fst p * h (snd p)) l).
Proof.
  intros H. unfold wll, S1, S0. rewrite <- !lsumR_map_scal, <- !lsumR_map_plus.
  apply lsumR_map_ext. intros p Hp. rewrite Forall_forall in H. rewrite (H p Hp). ring.
Qed.

(** ** the two inequalities *)
Lemma bern_ineq a b p : 0 < a -> 0 < b -> 0 < p < 1 ->
  a * ln p + b * ln (1 - p) <= a * ln (a / (a + b)) + b * ln (1 - a / (a + b)).
Proof.
  intros Ha Hb Hp. set (q := a / (a + b)).
  assert (0 < q < 1) as Hq.
  { unfold q. split; [apply Rdiv_lt_0_compat; lra|]. apply (Rmult_lt_reg_r (a + b)); [lra|]. unfold Rdiv. rewrite Rmult_assoc, Rinv_l by lra. lra. }
  pose proof (ln_le_sub1 (p / q) ltac:(apply Rdiv_lt_0_compat; lra)) as E1.
  pose proof (ln_le_sub1 ((1 - p) / (1 - q)) ltac:(apply Rdiv_lt_0_compat; lra)) as E2.
  unfold Rdiv in E1, E2. rewrite ln_mult, ln_Rinv in E1 by (try apply Rinv_0_lt_compat; lra).
  rewrite ln_mult, ln_Rinv in E2 by (try apply Rinv_0_lt_compat; lra).
  apply (Rmult_le_compat_l a) in E1; [|lra]. apply (Rmult_le_compat_l b) in E2; [|lra].
  assert (a * (p * / q - 1) + b * ((1 - p) * / (1 - q) - 1) = 0) as Z by (unfold q; field; repeat split; lra).
  lra.
Qed.

Lemma pois_ineq a b x : 0 < a -> 0 < b -> 0 < x -> a * ln x - b * x <= a * ln (a / b) - b * (a / b).
Proof.
  intros Ha Hb Hx. pose proof (ln_le_sub1 (x / (a / b)) ltac:(apply Rdiv_lt_0_compat; [lra|apply Rdiv_lt_0_compat; lra])) as E.
  unfold Rdiv at 1 in E. rewrite ln_mult, ln_Rinv in E by (try apply Rinv_0_lt_compat; try lra; apply Rdiv_lt_0_compat; lra).
  apply (Rmult_le_compat_l a) in E; [|lra].
  assert (a * (x / (a / b) - 1) = b * x - b * (a / b)) by (field; lra). lra.
Qed.

Lemma logit_split l : l = ln (sigmoid l) - ln (1 - sigmoid l).
Proof.
  pose proof (sigmoid_range l). rewrite <- (logit_sigmoid l) at 1. unfold Rdiv.
  rewrite ln_mult, ln_Rinv by (try apply Rinv_0_lt_compat; lra). ring.
Qed.
Lemma softplus_ln l : softplus l = - ln (1 - sigmoid l).
Proof. rewrite <- softplus_sigmoid, ln_exp. ring. Qed.

Lemma supp_nat_nonneg fm a : supp fm a = true ->
  (match fm with FBernoulli _ | FCategorical _ _ | FBinomial _ _ | FGeometric _ | FPoisson _ | FNegBin _ _ | FHyper _ _ _ => exists k, a = INR k | _ => True end).
Proof.
  destruct fm; cbn; auto; destruct (asnat a) as [k|] eqn:E; try discriminate; intros _; exists k; now apply asnat_Some.
Qed.

Lemma score_bernoulli l a : supp (FBernoulli l) a = true -> score (FBernoulli l) a = l * a + - softplus l + 0.
Proof. intros H. unfold score, fam_lp. rewrite H. cbn. ring. Qed.
Lemma score_binomial n l a : supp (FBinomial n l) a = true ->
  score (FBinomial n l) a = l * a + - (INR n * softplus l) +
    (match asnat a with Some k => lfact n - lfact k - lfact (n - k) | None => 0 end).
Proof. intros H. unfold score, fam_lp. rewrite H. cbn in *. destruct (asnat a); [ring|discriminate]. Qed.
Lemma score_geometric l a : supp (FGeometric l) a = true -> score (FGeometric l) a = ln (1 - sigmoid l) * a + ln (sigmoid l) + 0.
Proof. intros H. unfold score, fam_lp. rewrite H. cbn. ring. Qed.
Lemma score_poisson l a : supp (FPoisson l) a = true -> score (FPoisson l) a = l * a + - exp l + (match asnat a with Some k => - lfact k | None => 0 end).
Proof. intros H. unfold score, fam_lp. rewrite H. cbn in *. rewrite ln_exp. destruct (asnat a); [ring|discriminate]. Qed.
Lemma score_negbin r l a : (0 < r)%nat -> supp (FNegBin r l) a = true ->
  score (FNegBin r l) a = ln (sigmoid l) * a + INR r * ln (1 - sigmoid l) +
   (match asnat a with Some k => lfact (r + k - 1) - lfact k - lfact (r - 1) | None => 0 end).
Proof.
  intros Hr H. unfold score, fam_lp. rewrite H. cbn in *. destruct (asnat a) as [k|]; [|discriminate].
  replace (Nat.eqb (r + k) 0) with false by (symmetry; apply Nat.eqb_neq; lia).
  replace (Nat.eqb r 0) with false by (symmetry; apply Nat.eqb_neq; lia).
  rewrite sigmoid_neg. ring.
Qed.
Lemma score_exponential l a : supp (FExponential l) a = true -> score (FExponential l) a = - exp l * a + l + 0.
Proof. intros H. unfold score, fam_lp. rewrite H. cbn. rewrite ln_exp. ring. Qed.

Lemma S1_ext (g : R -> R) l : lsumR (map (fun p => fst p * g (snd p)) l) = lsumR (map (fun p => fst p * g (snd p)) l).
Proof. reflexivity. Qed.

Lemma sample_wpos fm l : sample_ok fm l -> wpos l.
Proof. intros [_ H]. eapply Forall_impl; [|exact H]. cbn. tauto. Qed.
Lemma sample_supp fm l p : sample_ok fm l -> In p l -> supp fm (snd p) = true.
Proof. intros [_ H] Hp. rewrite Forall_forall in H. now apply H. Qed.
Lemma supp_same fm fm' a : same_family fm fm' -> supp fm' a = supp fm a.
Proof. destruct fm, fm'; cbn; try tauto; intros; subst; reflexivity. Qed.
Lemma sample_same fm fm' l : same_family fm fm' -> sample_ok fm l -> sample_ok fm' l.
Proof.
  intros E [H1 H2]. split; [assumption|]. eapply Forall_impl; [|exact H2]. cbn. intros p [A B]. split; [assumption|].
  now rewrite (supp_same fm fm').
Qed.

Ltac affine L := apply wll_affine; apply Forall_forall; intros p Hp; apply L; eauto using sample_supp.

Lemma wll_bernoulli l s : sample_ok (FBernoulli l) s ->
  wll (FBernoulli l) s = S1 s * ln (sigmoid l) + (S0 s - S1 s) * ln (1 - sigmoid l).
Proof.
  intros H. rewrite (wll_affine _ l (- softplus l) (fun _ => 0)).
  - rewrite lsumR_map_zero by (intros; ring). rewrite softplus_ln. rewrite (logit_split l) at 1. ring.
  - apply Forall_forall. intros p Hp. apply score_bernoulli. eapply sample_supp; eauto.
Qed.

Definition hbin n a := match asnat a with Some k => lfact n - lfact k - lfact (n - k) | None => 0 end.
Definition hpois a := match asnat a with Some k => - lfact k | None => 0 end.
Definition hnb r a := match asnat a with Some k => lfact (r + k - 1) - lfact k - lfact (r - 1) | None => 0 end.
Definition hsum (h : R -> R) (s : list (R * R)) := lsumR (map (fun p => fst p * h (snd p)) s).

Lemma wll_binomial n l s : sample_ok (FBinomial n l) s ->
  wll (FBinomial n l) s = S1 s * ln (sigmoid l) + (INR n * S0 s - S1 s) * ln (1 - sigmoid l) + hsum (hbin n) s.
Proof.
  intros H. rewrite (wll_affine _ l (- (INR n * softplus l)) (hbin n)).
  - unfold hsum. rewrite softplus_ln. rewrite (logit_split l) at 1. ring.
  - apply Forall_forall. intros p Hp. apply score_binomial. eapply sample_supp; eauto.
Qed.
Lemma wll_geometric l s : sample_ok (FGeometric l) s ->
  wll (FGeometric l) s = S0 s * ln (sigmoid l) + S1 s * ln (1 - sigmoid l).
Proof.
  intros H. rewrite (wll_affine _ (ln (1 - sigmoid l)) (ln (sigmoid l)) (fun _ => 0)).
  - rewrite lsumR_map_zero by (intros; ring). ring.
  - apply Forall_forall. intros p Hp. apply score_geometric. eapply sample_supp; eauto.
Qed.
Lemma wll_poisson l s : sample_ok (FPoisson l) s -> wll (FPoisson l) s = S1 s * l - S0 s * exp l + hsum hpois s.
Proof.
  intros H. rewrite (wll_affine _ l (- exp l) hpois).
  - unfold hsum. ring.
  - apply Forall_forall. intros p Hp. apply score_poisson. eapply sample_supp; eauto.
Qed.
Lemma wll_negbin r l s : (0 < r)%nat -> sample_ok (FNegBin r l) s ->
  wll (FNegBin r l) s = S1 s * ln (sigmoid l) + (INR r * S0 s) * ln (1 - sigmoid l) + hsum (hnb r) s.
Proof.
  intros Hr H. rewrite (wll_affine _ (ln (sigmoid l)) (INR r * ln (1 - sigmoid l)) (hnb r)).
  - unfold hsum. ring.
  - apply Forall_forall. intros p Hp. apply score_negbin; [assumption|]. eapply sample_supp; eauto.
Qed.
Lemma wll_exponential l s : sample_ok (FExponential l) s -> wll (FExponential l) s = S0 s * l - S1 s * exp l.
Proof.
  intros H. rewrite (wll_affine _ (- exp l) l (fun _ => 0)).
  - rewrite lsumR_map_zero by (intros; ring). ring.
  - apply Forall_forall. intros p Hp. apply score_exponential. eapply sample_supp; eauto.
Qed.

(** ** optimality of the estimates *)
Definition optimal (fm : fam) (l : list (R * R)) : Prop := forall fm', same_family fm fm' -> wll fm' l <= wll fm l.

Lemma nonneg_nat fm l : sample_ok fm l -> (exists z, fm = FBernoulli z) \/ (exists n z, fm = FBinomial n z) \/ (exists z, fm = FGeometric z) \/
   (exists z, fm = FPoisson z) \/ (exists r z, fm = FNegBin r z) \/ (exists z, fm = FExponential z) -> forall p, In p l -> 0 <= snd p.
Proof.
  intros H K p Hp. pose proof (sample_supp _ _ _ H Hp) as S.
  pose proof (supp_nat_nonneg _ _ S) as N.
  destruct K as [(z & ->)|[(n & z & ->)|[(z & ->)|[(z & ->)|[(r & z & ->)|(z & ->)]]]]];
    try (destruct N as (k & ->); apply pos_INR).
  cbn in S. unfold rle in S. destruct (Rle_dec 0 (snd p)); [assumption|discriminate].
Qed.

Lemma opt_bernoulli z ulp t l : 0 < t -> sample_ok (FBernoulli z) l -> interior (FBernoulli z) l ->
  exists fm, stored_fam (est_bernoulli ulp (XR t) l) = Some fm /\ same_family (FBernoulli z) fm /\ optimal fm l.
Proof.
  intros Ht H [(q0 & Hq0 & Z0) (q1 & Hq1 & Z1)]. pose proof (sample_wpos _ _ H) as W. pose proof (S0_pos l (proj1 H) W) as P0.
  assert (forall p, In p l -> 0 <= snd p <= 1) as B.
  { intros p Hp. pose proof (sample_supp _ _ _ H Hp) as S. cbn in S. destruct (asnat (snd p)) as [k|] eqn:E; [|discriminate].
    apply asnat_Some in E. apply Nat.ltb_lt in S. rewrite E. destruct k as [|[|k]]; [| |lia]; cbn; lra. }
  assert (0 < S1 l) as P1 by (apply S1_pos; [assumption|intros p Hp; apply B, Hp|exists q1; split; [assumption|lra]]).
  assert (S1 l < 1 * S0 l) as P2 by (apply S1_lt; [assumption|intros p Hp; apply B, Hp|exists q0; split; [assumption|lra]]).
  assert (0 < S1 l / S0 l < 1) as Pp.
  { split; [now apply Rdiv_lt_0_compat|]. apply (Rmult_lt_reg_r (S0 l)); [lra|]. unfold Rdiv. rewrite Rmult_assoc, Rinv_l by lra. lra. }
  unfold est_bernoulli. rewrite ratio, edge_lb_in by (assumption || lra).
  unfold stored_fam. cbn [store]. rewrite xlogit_in by assumption. eexists. split; [reflexivity|]. split; [exact I|].
  intros fm' E. destruct fm' as [z'| | | | | | | | | |]; try contradiction.
  rewrite !wll_bernoulli by (eapply sample_same; [|exact H]; exact I).
  rewrite sigmoid_logit by assumption.
  pose proof (bern_ineq (S1 l) (S0 l - S1 l) (sigmoid z') P1 ltac:(lra) (sigmoid_range z')) as K.
  replace (S1 l + (S0 l - S1 l)) with (S0 l) in K by ring. exact K.
Qed.

Lemma opt_binomial n z ulp t l : 0 < t -> sample_ok (FBinomial n z) l -> interior (FBinomial n z) l ->
  exists fm, stored_fam (est_binomial ulp n (XR t) l) = Some fm /\ same_family (FBinomial n z) fm /\ optimal fm l.
Proof.
  intros Ht H [O1 O2]. pose proof (sample_wpos _ _ H) as W. pose proof (S0_pos l (proj1 H) W) as P0.
  assert (forall p, In p l -> 0 <= snd p <= INR n) as B.
  { intros p Hp. pose proof (sample_supp _ _ _ H Hp) as S. cbn in S. destruct (asnat (snd p)) as [k|] eqn:E; [|discriminate].
    apply asnat_Some in E. apply Nat.leb_le in S. rewrite E. split; [apply pos_INR|now apply le_INR]. }
  assert (0 < S1 l) as P1 by (apply S1_pos; [assumption|intros p Hp; apply B, Hp|assumption]).
  assert (S1 l < INR n * S0 l) as P2 by (apply S1_lt; [assumption|intros p Hp; apply B, Hp|assumption]).
  assert (0 < INR n) as Pn. { destruct (Rle_or_lt (INR n) 0); [|assumption]. pose proof (pos_INR n). assert (INR n = 0) by lra. rewrite H2 in P2. lra. }
  assert (0 < S1 l / (S0 l * INR n) < 1) as Pp.
  { split; [apply Rdiv_lt_0_compat; [assumption|now apply Rmult_lt_0_compat]|].
    apply (Rmult_lt_reg_r (S0 l * INR n)); [now apply Rmult_lt_0_compat|]. unfold Rdiv. rewrite Rmult_assoc, Rinv_l by (apply Rmult_integral_contrapositive; lra). lra. }
  unfold est_binomial. cbn [xmul]. rewrite xdiv_R by (apply Rmult_integral_contrapositive; lra). cbn [xmul].
  rewrite xdiv_R.
  2:{ replace (t / (t * S0 l) * S0 l * INR n) with (INR n) by (field; lra). lra. }
  replace (t / (t * S0 l) * S1 l / (t / (t * S0 l) * S0 l * INR n)) with (S1 l / (S0 l * INR n)) by (field; lra).
  rewrite edge_in by assumption. unfold stored_fam. cbn [store]. rewrite xlogit_in by assumption.
  eexists. split; [reflexivity|]. split; [reflexivity|].
  intros fm' E. destruct fm' as [| |n' z'| | | | | | | |]; try contradiction. cbn in E. subst n'.
  rewrite !wll_binomial by (eapply sample_same; [|exact H]; reflexivity).
  rewrite sigmoid_logit by assumption.
  pose proof (bern_ineq (S1 l) (INR n * S0 l - S1 l) (sigmoid z') P1 ltac:(lra) (sigmoid_range z')) as K.
  replace (S1 l + (INR n * S0 l - S1 l)) with (S0 l * INR n) in K by ring. lra.
Qed.

Lemma opt_geometric z ulp t l : 0 < t -> sample_ok (FGeometric z) l -> interior (FGeometric z) l ->
  exists fm, stored_fam (est_geometric ulp false (XR t) l) = Some fm /\ same_family (FGeometric z) fm /\ optimal fm l.
Proof.
  intros Ht H O1. pose proof (sample_wpos _ _ H) as W. pose proof (S0_pos l (proj1 H) W) as P0.
  assert (0 < S1 l) as P1.
  { apply S1_pos; [assumption| |assumption]. apply (nonneg_nat _ _ H). right; right; left. eauto. }
  assert (0 < S0 l / (S0 l + S1 l) < 1) as Pp.
  { split; [apply Rdiv_lt_0_compat; lra|]. apply (Rmult_lt_reg_r (S0 l + S1 l)); [lra|]. unfold Rdiv. rewrite Rmult_assoc, Rinv_l by lra. lra. }
  unfold est_geometric. cbn [xmul xadd]. 
  replace (t * S1 l + t * S0 l) with (t * (S0 l + S1 l)) by ring.
  rewrite xdiv_R by (apply Rmult_integral_contrapositive; lra).
  replace (t * S0 l / (t * (S0 l + S1 l))) with (S0 l / (S0 l + S1 l)) by (field; lra).
  rewrite edge_lb_in by apply Pp. unfold stored_fam. cbn [store]. rewrite xlogit_in by assumption.
  eexists. split; [reflexivity|]. split; [exact I|].
  intros fm' E. destruct fm' as [| | |z'| | | | | | |]; try contradiction.
  rewrite !wll_geometric by (eapply sample_same; [|exact H]; exact I).
  rewrite sigmoid_logit by assumption. apply bern_ineq; try assumption. apply sigmoid_range.
Qed.

Lemma opt_poisson z ulp t l : 0 < t -> sample_ok (FPoisson z) l -> interior (FPoisson z) l ->
  exists fm, stored_fam (est_poisson ulp (XR t) l) = Some fm /\ same_family (FPoisson z) fm /\ optimal fm l.
Proof.
  intros Ht H O1. pose proof (sample_wpos _ _ H) as W. pose proof (S0_pos l (proj1 H) W) as P0.
  assert (0 < S1 l) as P1.
  { apply S1_pos; [assumption| |assumption]. apply (nonneg_nat _ _ H). do 3 right; left. eauto. }
  assert (0 < S1 l / S0 l) as Pp by now apply Rdiv_lt_0_compat.
  unfold est_poisson. rewrite ratio, edge_lb_in by assumption.
  unfold stored_fam. cbn [store]. rewrite xlog_pos by assumption. eexists. split; [reflexivity|]. split; [exact I|].
  intros fm' E. destruct fm' as [| | | |z'| | | | | |]; try contradiction.
  rewrite !wll_poisson by (eapply sample_same; [|exact H]; exact I).
  pose proof (pois_ineq (S1 l) (S0 l) (exp z') P1 P0 (exp_pos z')) as K. rewrite ln_exp in K. rewrite exp_ln by assumption. lra.
Qed.

Lemma opt_negbin r z ulp t l : 0 < t -> sample_ok (FNegBin r z) l -> interior (FNegBin r z) l ->
  exists fm, stored_fam (est_negbin ulp r false (XR t) l) = Some fm /\ same_family (FNegBin r z) fm /\ optimal fm l.
Proof.
  intros Ht H [Hr O1]. pose proof (sample_wpos _ _ H) as W. pose proof (S0_pos l (proj1 H) W) as P0.
  assert (0 < S1 l) as P1.
  { apply S1_pos; [assumption| |assumption]. apply (nonneg_nat _ _ H). do 4 right; left. eauto. }
  pose proof (lt_0_INR r Hr) as Pr. set (N := INR r * S0 l). assert (0 < N) as PN by (now apply Rmult_lt_0_compat).
  assert (0 < S1 l / (S1 l + N) < 1) as Pp.
  { split; [apply Rdiv_lt_0_compat; lra|]. apply (Rmult_lt_reg_r (S1 l + N)); [lra|]. unfold Rdiv. rewrite Rmult_assoc, Rinv_l by lra. lra. }
  unfold est_negbin. cbn [xmul xadd].
  replace (t * S1 l + t * S0 l * INR r) with (t * (S1 l + N)) by (unfold N; ring).
  replace (t * S0 l * INR r) with (t * N) by (unfold N; ring).
  rewrite xdiv_R by (apply Rmult_integral_contrapositive; lra). cbn [xsub xadd xneg].
  replace (1 + - (t * N / (t * (S1 l + N)))) with (S1 l / (S1 l + N)) by (field; lra).
  rewrite edge_in by assumption. unfold stored_fam. cbn [store]. rewrite xlogit_in by assumption.
  eexists. split; [reflexivity|]. split; [reflexivity|].
  intros fm' E. destruct fm' as [| | | | |r' z'| | | | |]; try contradiction. cbn in E. subst r'.
  rewrite !wll_negbin by (assumption || (eapply sample_same; [|exact H]; reflexivity)).
  rewrite sigmoid_logit by assumption.
  pose proof (bern_ineq (S1 l) N (sigmoid z') P1 PN (sigmoid_range z')) as K. fold N. lra.
Qed.

Lemma opt_exponential z ulp t l : 0 < t -> sample_ok (FExponential z) l -> interior (FExponential z) l ->
  exists fm, stored_fam (est_exponential ulp false (XR t) l) = Some fm /\ same_family (FExponential z) fm /\ optimal fm l.
Proof.
  intros Ht H O1. pose proof (sample_wpos _ _ H) as W. pose proof (S0_pos l (proj1 H) W) as P0.
  assert (0 < S1 l) as P1.
  { apply S1_pos; [assumption| |assumption]. apply (nonneg_nat _ _ H). do 5 right. eauto. }
  assert (0 < S0 l / S1 l) as Pp by now apply Rdiv_lt_0_compat.
  unfold est_exponential. rewrite ratio, edge_lb_in by assumption.
  unfold stored_fam. cbn [store]. rewrite xlog_pos by assumption. eexists. split; [reflexivity|]. split; [exact I|].
  intros fm' E. destruct fm' as [| | | | | | | |z'| |]; try contradiction.
  rewrite !wll_exponential by (eapply sample_same; [|exact H]; exact I).
  pose proof (pois_ineq (S0 l) (S1 l) (exp z') P0 P1 (exp_pos z')) as K. rewrite ln_exp in K. rewrite exp_ln by assumption. lra.
Qed.
