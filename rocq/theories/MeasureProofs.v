(** Finite distributions given by their marginals: entropy and mutual information. *)
From Coq Require Import List Arith Bool Lia Lra FunctionalExtensionality Permutation.
From Verif Require Import Base CircuitModel Integral EmProofs.
Import ListNotations.
Local Open Scope R_scope.

Lemma ln_div a b : 0 < a -> 0 < b -> ln (a / b) = ln a - ln b.
Proof. intros H1 H2. unfold Rdiv. rewrite ln_mult, ln_Rinv by (try apply Rinv_0_lt_compat; assumption). reflexivity. Qed.

(** sum of [g] over all assignments of 0..K v - 1 to the variables [vs] *)
Fixpoint gsum (K : nat -> nat) (vs : list nat) (g : row -> R) (x : row) : R :=
  match vs with
  | [] => g x
  | v :: r => bsum (K v) (fun a => gsum K r g (upd x v (Some (INR a))))
  end.

Section G.
Variable K : nat -> nat.
Notation gs := (gsum K).

Lemma gs_app vs ws g x : gs (vs ++ ws) g x = gs vs (gs ws g) x.
Proof. revert x. induction vs as [|v vs IH]; intros x; [reflexivity|]. cbn. apply bsum_ext. intros a _. apply IH. Qed.
Lemma gs_ext vs g h x : (forall w, g w = h w) -> gs vs g x = gs vs h x.
Proof. revert x. induction vs as [|v vs IH]; intros x H; [apply H|]. cbn. apply bsum_ext. intros a _. now apply IH. Qed.
Lemma gs_plus vs g h x : gs vs (fun w => g w + h w) x = gs vs g x + gs vs h x.
Proof. revert x. induction vs as [|v vs IH]; intros x; [reflexivity|]. cbn. rewrite <- bsum_plus. apply bsum_ext. intros a _. apply IH. Qed.
Lemma gs_scal vs k g x : gs vs (fun w => k * g w) x = k * gs vs g x.
Proof. revert x. induction vs as [|v vs IH]; intros x; [reflexivity|]. cbn. rewrite <- bsum_scal. apply bsum_ext. intros a _. apply IH. Qed.
Lemma gs_opp vs g x : gs vs (fun w => - g w) x = - gs vs g x.
Proof. rewrite (gs_ext vs _ (fun w => (-1) * g w)) by (intros; ring). rewrite gs_scal. ring. Qed.
Lemma gs_minus vs g h x : gs vs (fun w => g w - h w) x = gs vs g x - gs vs h x.
Proof. rewrite (gs_ext vs _ (fun w => g w + (- h w))) by (intros; ring). rewrite gs_plus, gs_opp. ring. Qed.

(** the assignments reached from [x] *)
Inductive reach : list nat -> row -> row -> Prop :=
| r_nil x : reach [] x x
| r_cons v vs x w a : (a < K v)%nat -> reach vs (upd x v (Some (INR a))) w -> reach (v :: vs) x w.

Lemma gs_ext_in vs g h x : (forall w, reach vs x w -> g w = h w) -> gs vs g x = gs vs h x.
Proof.
  revert x. induction vs as [|v vs IH]; intros x H; [apply H; constructor|]. cbn. apply bsum_ext. intros a Ha. apply IH. intros w Hw. apply H. econstructor; eauto.
Qed.
Lemma gs_le vs g h x : (forall w, reach vs x w -> g w <= h w) -> gs vs g x <= gs vs h x.
Proof.
  revert x. induction vs as [|v vs IH]; intros x H; [apply H; constructor|]. cbn. apply bsum_le. intros a Ha. apply IH. intros w Hw. apply H. econstructor; eauto.
Qed.
Lemma gs_nonneg vs g x : (forall w, reach vs x w -> 0 <= g w) -> 0 <= gs vs g x.
Proof.
  revert x. induction vs as [|v vs IH]; intros x H; [apply H; constructor|]. cbn. apply bsum_nonneg. intros a Ha. apply IH. intros w Hw. apply H. econstructor; eauto.
Qed.
Lemma gs_nonneg_zero vs g x : (forall w, reach vs x w -> 0 <= g w) -> gs vs g x = 0 -> forall w, reach vs x w -> g w = 0.
Proof.
  revert x. induction vs as [|v vs IH]; intros x H Z w Hw.
  - inversion Hw; subst. exact Z.
  - inversion Hw as [|? ? ? ? a Ha Hr]; subst. cbn in Z. apply (IH (upd x v (Some (INR a)))).
    + intros u Hu. apply H. econstructor; eauto.
    + apply (bsum_nonneg_zero (K v) (fun a => gs vs g (upd x v (Some (INR a))))); auto. intros b Hb. apply gs_nonneg. intros u Hu. apply H. econstructor; eauto.
    + exact Hr.
Qed.
Lemma reach_app vs ws x w : reach (vs ++ ws) x w <-> exists u, reach vs x u /\ reach ws u w.
Proof.
  revert x. induction vs as [|v vs IH]; intros x; cbn.
  - split; [intros H; exists x; split; [constructor|exact H]|]. intros (u & H1 & H2). inversion H1; subst. exact H2.
  - split.
    + intros H. inversion H as [|? ? ? ? a Ha Hr]; subst. apply IH in Hr. destruct Hr as (u & H1 & H2). exists u. split; [econstructor; eauto|exact H2].
    + intros (u & H1 & H2). inversion H1 as [|? ? ? ? a Ha Hr]; subst. econstructor; eauto. apply IH. eauto.
Qed.

Lemma upd_comm (x : row) u v a b : u <> v -> upd (upd x u a) v b = upd (upd x v b) u a.
Proof. intros H. apply functional_extensionality. intros t. unfold upd. destruct (Nat.eqb_spec t v), (Nat.eqb_spec t u); subst; congruence. Qed.
Lemma gs_perm vs ws g x : Permutation vs ws -> NoDup vs -> gs vs g x = gs ws g x.
Proof.
  intros P. revert x. induction P as [|v vs ws P IH|u v vs|vs ws us P1 IH1 P2 IH2]; intros x ND.
  - reflexivity.
  - inversion ND; subst. cbn. apply bsum_ext. intros a _. now apply IH.
  - cbn. rewrite bsum_swap. apply bsum_ext. intros a _. apply bsum_ext. intros b _. rewrite upd_comm; [reflexivity|].
    inversion ND as [|? ? N _]; subst. intros ->. apply N. now left.
  - rewrite IH1 by exact ND. apply IH2. eapply Permutation_NoDup; eauto.
Qed.

Lemma reach_other vs x w v : reach vs x w -> ~ In v vs -> w v = x v.
Proof.
  induction 1 as [x|u vs x w a Ha Hr IH]; intros N; [reflexivity|]. rewrite IH by (intros H; apply N; now right). apply upd_other. intros ->. apply N. now left.
Qed.
Lemma reach_in vs x w v : reach vs x w -> NoDup vs -> In v vs -> exists a, (a < K v)%nat /\ w v = Some (INR a).
Proof.
  induction 1 as [x|u vs x w a Ha Hr IH]; intros ND Hv; [destruct Hv|]. inversion ND as [|? ? N ND']; subst. destruct Hv as [->|Hv]; [|now apply IH].
  exists a. split; [exact Ha|]. rewrite (reach_other _ _ _ v Hr N). now rewrite upd_same.
Qed.
Lemma set_nan_spec vs (x : row) v : set_nan vs x v = if existsb (Nat.eqb v) vs then None else x v.
Proof. reflexivity. Qed.
Lemma exb vs v : existsb (Nat.eqb v) vs = true <-> In v vs.
Proof. rewrite existsb_exists. split; [intros (u & Hu & E); apply Nat.eqb_eq in E; now subst|intros H; exists v; split; [exact H|apply Nat.eqb_refl]]. Qed.
Lemma set_nan_in vs (x : row) v : In v vs -> set_nan vs x v = None.
Proof. intros H. rewrite set_nan_spec. now rewrite (proj2 (exb vs v) H). Qed.
Lemma set_nan_out vs (x : row) v : ~ In v vs -> set_nan vs x v = x v.
Proof. intros H. rewrite set_nan_spec. destruct (existsb _ vs) eqn:E; [|reflexivity]. apply exb in E. contradiction. Qed.
Lemma set_nan_reach vs x w : reach vs x w -> set_nan vs w = set_nan vs x.
Proof.
  intros H. apply functional_extensionality. intros v. destruct (in_dec Nat.eq_dec v vs) as [I|N]; [now rewrite !set_nan_in|]. rewrite !set_nan_out by exact N. now apply (reach_other vs).
Qed.
Lemma set_nan_id vs x : (forall v, In v vs -> x v = None) -> set_nan vs x = x.
Proof. intros H. apply functional_extensionality. intros v. destruct (in_dec Nat.eq_dec v vs) as [I|N]; [now rewrite set_nan_in, H|now rewrite set_nan_out]. Qed.

(** ** a family of marginals *)
Variables (G : row -> R) (ok : nat -> Prop).
Hypothesis Gpos : forall x, 0 <= G x.
Hypothesis Gmarg : forall v x, ok v -> bsum (K v) (fun a => G (upd x v (Some (INR a)))) = G (upd x v None).
Hypothesis Gone : G (fun _ => None) = 1.

Lemma gs_marg vs x : NoDup vs -> Forall ok vs -> gs vs G x = G (set_nan vs x).
Proof.
  revert x. induction vs as [|v vs IH]; intros x ND F.
  - cbn. f_equal.
  - inversion ND as [|? ? N ND']; subst. inversion F as [|? ? F1 F2]; subst. cbn [gsum].
    rewrite (bsum_ext _ _ (fun a => G (upd (set_nan vs x) v (Some (INR a))))).
    + rewrite Gmarg by exact F1. f_equal. apply functional_extensionality. intros u. rewrite (set_nan_spec (v :: vs)). cbn [existsb]. unfold upd. rewrite set_nan_spec. destruct (Nat.eqb_spec u v); reflexivity.
    + intros a _. rewrite IH by assumption. f_equal. apply functional_extensionality. intros u. unfold upd. rewrite !set_nan_spec. destruct (Nat.eqb_spec u v) as [->|]; [|reflexivity].
      destruct (existsb _ vs) eqn:E; [|reflexivity]. apply exb in E. contradiction.
Qed.

Lemma gs_le_marg vs x w : NoDup vs -> Forall ok vs -> reach vs x w -> G w <= G (set_nan vs x).
Proof.
  intros ND F H. rewrite <- gs_marg by assumption. clear ND F. induction H as [x|v vs x w a Ha Hr IH]; [cbn; lra|]. cbn.
  eapply Rle_trans; [exact IH|]. apply (bsum_term_le (K v) (fun a => gs vs G (upd x v (Some (INR a))))); [exact Ha|]. intros b Hb. apply gs_nonneg. intros; apply Gpos.
Qed.

(** pulling a function of the remaining variables out of a sum *)
Lemma gs_expect S T (f : row -> R) x : NoDup T -> Forall ok T -> (forall v, In v T -> x v = None) -> (forall v, In v T -> ~ In v S) ->
  gs S (fun w => G w * f w) x = gs (S ++ T) (fun w => G w * f (set_nan T w)) x.
Proof.
  intros ND F HX HS. rewrite gs_app. apply gs_ext_in. intros u Hu.
  rewrite (gs_ext_in T _ (fun w => f (set_nan T u) * G w)).
  - rewrite gs_scal, gs_marg by assumption. rewrite set_nan_id; [ring|]. intros v Hv. rewrite (reach_other S x u v Hu) by (now apply HS). now apply HX.
  - intros w Hw. rewrite (set_nan_reach T u w Hw). ring.
Qed.

(** plain and relative entropy *)
Definition H (S : list nat) : R := - gs S (fun w => G w * ln (G w)) (fun _ => None).

Lemma G_le1 vs w : NoDup vs -> Forall ok vs -> reach vs (fun _ => None) w -> G w <= 1.
Proof. intros ND F R. rewrite <- Gone. replace (fun _ : nat => @None Rdefinitions.R) with (set_nan vs (fun _ => None)); [now apply gs_le_marg|]. now apply set_nan_id. Qed.
Lemma gs_total vs : NoDup vs -> Forall ok vs -> gs vs G (fun _ => None) = 1.
Proof. intros ND F. rewrite gs_marg, set_nan_id by auto. exact Gone. Qed.

Lemma ln_le0 a : 0 <= a <= 1 -> a * ln a <= 0.
Proof.
  intros [H1 H2]. destruct H1 as [H1|<-]; [|lra]. assert (ln a <= 0); [|nra]. rewrite <- ln_1. destruct H2 as [H2| ->]; [|lra]. left. now apply ln_increasing.
Qed.

Lemma H_nonneg S : NoDup S -> Forall ok S -> 0 <= H S.
Proof.
  intros ND F. unfold H. assert (gs S (fun w => G w * ln (G w)) (fun _ => None) <= 0); [|lra].
  apply Rle_trans with (gs S (fun _ => 0) (fun _ => None)).
  - apply gs_le. intros w Hw. apply ln_le0. split; [apply Gpos|eapply G_le1; eauto].
  - rewrite (gs_ext S _ (fun w => 0 * G w)) by (intros; ring). rewrite gs_scal. lra.
Qed.

Fixpoint lstates (S : list nat) : R := match S with [] => 0 | v :: r => ln (INR (K v)) + lstates r end.
Fixpoint nstates (S : list nat) : R := match S with [] => 1 | v :: r => INR (K v) * nstates r end.
Lemma gs_const S k x : gs S (fun _ => k) x = nstates S * k.
Proof. revert x. induction S as [|v S IH]; intros x; cbn; [ring|]. rewrite (bsum_ext _ _ (fun _ => nstates S * k)) by (intros; apply IH). rewrite bsum_const. ring. Qed.
Lemma nstates_pos S : (forall v, In v S -> (0 < K v)%nat) -> 0 < nstates S /\ ln (nstates S) = lstates S.
Proof.
  induction S as [|v S IH]; intros HK; cbn; [split; [lra|apply ln_1]|]. destruct IH as [P E]; [intros; apply HK; now right|].
  assert (0 < INR (K v)) by (apply lt_0_INR, HK; now left). split; [now apply Rmult_lt_0_compat|]. rewrite ln_mult by assumption. now rewrite E.
Qed.
Lemma ok_pos S : NoDup S -> Forall ok S -> forall v, In v S -> (0 < K v)%nat.
Proof.
  intros ND F v Hv. destruct (K v) eqn:E; [|lia]. exfalso. rewrite Forall_forall in F. pose proof (Gmarg v (fun _ => None) (F v Hv)) as M. rewrite E in M. cbn in M.
  assert (upd (fun _ => None) v None = fun _ : nat => @None Rdefinitions.R) as Z by (apply functional_extensionality; intros u; unfold upd; destruct (Nat.eqb u v); reflexivity).
  rewrite Z, Gone in M. lra.
Qed.

(** [g ln (q / g) <= q - g] *)
Lemma gibbs1 g q : 0 <= g -> 0 <= q -> (0 < g -> 0 < q) -> g * (ln q - ln g) <= q - g.
Proof.
  intros Hg Hq HP. destruct Hg as [Hg|<-]; [|lra]. specialize (HP Hg).
  rewrite <- ln_div by assumption. pose proof (ln_le_sub1 (q / g) (Rdiv_lt_0_compat _ _ HP Hg)) as L.
  apply Rle_trans with (g * (q / g - 1)); [apply Rmult_le_compat_l; lra|]. right. field. lra.
Qed.
Lemma gibbs1_eq g q : 0 <= g -> 0 <= q -> (0 < g -> 0 < q) -> q - g - g * (ln q - ln g) = 0 -> q = g.
Proof.
  intros Hg Hq HP E. destruct Hg as [Hg|<-]; [|lra]. specialize (HP Hg). rewrite <- ln_div in E by assumption.
  set (t := q / g) in *. assert (0 < t) by now apply Rdiv_lt_0_compat. assert (q = g * t) as Eq by (unfold t; field; lra). rewrite Eq in E.
  assert (t - 1 = ln t) as L by nra. assert (t = 1) as ->; [|lra].
  destruct (Req_dec (ln t) 0) as [Z|NZ]; [rewrite Z in L; lra|]. pose proof (exp_ineq1 (ln t) NZ) as X. rewrite exp_ln in X by assumption. lra.
Qed.

Lemma H_max S : NoDup S -> Forall ok S -> H S <= lstates S.
Proof.
  intros ND F. destruct (nstates_pos S (ok_pos S ND F)) as [NP NE]. unfold H.
  assert (gs S (fun w => G w * (ln (/ nstates S) - ln (G w))) (fun _ => None) <= gs S (fun w => / nstates S - G w) (fun _ => None)) as L.
  { apply gs_le. intros w _. assert (0 < / nstates S) by now apply Rinv_0_lt_compat. apply gibbs1; [apply Gpos|lra|auto]. }
  rewrite gs_minus, gs_const, gs_total in L by assumption.
  rewrite (gs_ext S _ (fun w => ln (/ nstates S) * G w - G w * ln (G w))) in L by (intros; ring).
  rewrite gs_minus, gs_scal, gs_total, ln_Rinv, NE in L by assumption. rewrite Rinv_r in L by lra. lra.
Qed.

Lemma H_perm S T : Permutation S T -> NoDup S -> H S = H T.
Proof. intros P ND. unfold H. f_equal. now apply gs_perm. Qed.

(** entropies as expectations over more variables *)
Lemma H_ext S T : NoDup (S ++ T) -> Forall ok (S ++ T) -> H S = - gs (S ++ T) (fun w => G w * ln (G (set_nan T w))) (fun _ => None).
Proof.
  intros ND F. apply Forall_app in F. destruct F as [F1 F2]. unfold H. f_equal. apply (gs_expect S T (fun w => ln (G w))); auto.
  - clear -ND. induction S as [|a S IH]; [exact ND|]. inversion ND; auto.
  - intros v HT HS. clear -ND HT HS. induction S as [|a S IH]; [destruct HS|]. inversion ND as [|? ? N ND']; subst. destruct HS as [->|HS]; [apply N, in_or_app; now right|auto].
Qed.

Lemma H_mono S T : NoDup (S ++ T) -> Forall ok (S ++ T) -> H S <= H (S ++ T).
Proof.
  intros ND F. rewrite (H_ext S T ND F). unfold H. apply Ropp_le_contravar. apply gs_le. intros w Hw.
  apply reach_app in Hw. destruct Hw as (u & H1 & H2). apply Forall_app in F. destruct F as [F1 F2].
  assert (NoDup T) as NT by (clear -ND; induction S as [|a S IH]; [exact ND|]; inversion ND; auto).
  pose proof (gs_le_marg T u w NT F2 H2) as L. rewrite <- (set_nan_reach T u w H2) in L.
  destruct (Gpos w) as [Pw|Z]; [|rewrite <- Z; lra]. apply Rmult_le_compat_l; [lra|]. destruct L as [L| ->]; [|lra]. left. apply ln_increasing; lra.
Qed.

(** conditional mutual information as a relative entropy; variables in the order z, x, y *)
Section CMI.
Variables X Y Z : list nat.
Hypothesis ND : NoDup (Z ++ X ++ Y).
Hypothesis F : Forall ok (Z ++ X ++ Y).
Let x0 : row := fun _ => None.
Let A := Z ++ X ++ Y.

Lemma parts : NoDup Z /\ NoDup X /\ NoDup Y /\ NoDup (X ++ Y) /\ NoDup (Z ++ X) /\ NoDup (Z ++ Y) /\ Forall ok Z /\ Forall ok X /\ Forall ok Y /\
  (forall v, In v Y -> ~ In v X) /\ (forall v, In v X -> ~ In v Y) /\ (forall v, In v X \/ In v Y -> ~ In v Z).
Proof.
  pose proof F as F'. apply Forall_app in F'. destruct F' as [FZ F']. apply Forall_app in F'. destruct F' as [FX FY].
  assert (NA : forall l1 l2 : list nat, NoDup (l1 ++ l2) -> NoDup l1 /\ NoDup l2 /\ forall v, In v l1 -> ~ In v l2).
  { clear. induction l1 as [|a l1 IH]; intros l2 H; [split; [constructor|split; [exact H|intros v []]]|]. inversion H as [|? ? N H']; subst. destruct (IH l2 H') as (N1 & N2 & D).
    split; [constructor; [intros KK; apply N, in_or_app; now left|exact N1]|]. split; [exact N2|]. intros v [<-|Hv] Hv2; [apply N, in_or_app; now right|now apply (D v)]. }
  assert (NI : forall l1 l2 : list nat, NoDup l1 -> NoDup l2 -> (forall v, In v l1 -> ~ In v l2) -> NoDup (l1 ++ l2)).
  { clear. induction l1 as [|a l1 IH]; intros l2 H1 H2 D; [exact H2|]. inversion H1; subst. cbn. constructor; [|apply IH; auto; intros v Hv; apply D; now right].
    intros KK. apply in_app_or in KK. destruct KK as [KK|KK]; [contradiction|]. apply (D a); [now left|exact KK]. }
  destruct (NA Z (X ++ Y) ND) as (NZ & NXY & D1). destruct (NA X Y NXY) as (NX & NY & D2).
  do 4 (split; [assumption|]). split; [apply NI; auto; intros v Hv Hx; apply (D1 v Hv), in_or_app; now left|]. split; [apply NI; auto; intros v Hv Hx; apply (D1 v Hv), in_or_app; now right|].
  do 3 (split; [assumption|]). split; [intros v Hy Hx; now apply (D2 v)|]. split; [exact D2|]. intros v Hv Hz. apply (D1 v Hz), in_or_app. exact Hv.
Qed.

Definition gz w := G (set_nan (X ++ Y) w).
Definition gzx w := G (set_nan Y w).
Definition gzy w := G (set_nan X w).

Lemma H_z : H Z = - gs A (fun w => G w * ln (gz w)) x0.
Proof. apply (H_ext Z (X ++ Y)); assumption. Qed.
Lemma H_zx : H (Z ++ X) = - gs A (fun w => G w * ln (gzx w)) x0.
Proof. unfold A. rewrite app_assoc. apply (H_ext (Z ++ X) Y); now rewrite <- app_assoc. Qed.
Lemma H_zy : H (Z ++ Y) = - gs A (fun w => G w * ln (gzy w)) x0.
Proof.
  destruct parts as (NZ & NX & NY & NXY & NZX & NZY & FZ & FX & FY & D1 & D2 & D3).
  rewrite (H_ext (Z ++ Y) X).
  - unfold gzy, A. f_equal. apply gs_perm.
    + rewrite <- app_assoc. apply Permutation_app_head, Permutation_app_comm.
    + eapply Permutation_NoDup; [|exact ND]. rewrite <- app_assoc. apply Permutation_app_head, Permutation_app_comm.
  - eapply Permutation_NoDup; [|exact ND]. rewrite <- app_assoc. apply Permutation_app_head, Permutation_app_comm.
  - rewrite !Forall_app. auto.
Qed.

Lemma upper w : reach A x0 w -> G w <= gzx w /\ G w <= gzy w /\ gzx w <= gz w /\ gzy w <= gz w.
Proof.
  intros Hw. destruct parts as (NZ & NX & NY & NXY & NZX & NZY & FZ & FX & FY & D1 & D2 & D3).
  unfold A in Hw. rewrite app_assoc in Hw. apply reach_app in Hw. destruct Hw as (u & Hu & Hw). apply reach_app in Hu. destruct Hu as (t & Ht & Hu).
  assert (E1 : gzx w = G u).
  { unfold gzx. f_equal. rewrite (set_nan_reach Y u w Hw). apply set_nan_id. intros v Hv. rewrite (reach_other X t u v Hu) by (now apply D1). rewrite (reach_other Z x0 t v Ht) by (apply D3; now right). reflexivity. }
  assert (E0 : gz w = G t).
  { unfold gz. f_equal. assert (reach (X ++ Y) t w) as RR by (apply reach_app; eauto). rewrite (set_nan_reach (X ++ Y) t w RR). apply set_nan_id. intros v Hv. apply in_app_or in Hv.
    rewrite (reach_other Z x0 t v Ht) by (now apply D3). reflexivity. }
  (* swap x and y *)
  set (y' := fun v => if existsb (Nat.eqb v) Y then w v else t v).
  assert (R1 : reach Y t (set_nan X w)).
  { clear E1 E0 y'. assert (forall Y' t t' w', reach Y' t w' -> (forall v, ~ In v Y' -> In v X -> t' v = None) -> (forall v, ~ In v X -> t' v = t v) -> (forall v, In v Y' -> ~ In v X) -> reach Y' t' (set_nan X w')) as K'.
    { clear. induction Y' as [|y Y' IH]; intros t t' w' Hr H1 H2 H3; inversion Hr as [|? ? ? ? a Ha Hr']; subst.
      - assert (set_nan X w' = t') as ->; [|constructor]. apply functional_extensionality. intros v. destruct (in_dec Nat.eq_dec v X) as [I|N]; [rewrite set_nan_in by exact I; symmetry; now apply H1|rewrite set_nan_out by exact N; symmetry; now apply H2].
      - apply (r_cons y Y' t' _ a Ha). apply (IH (upd t y (Some (INR a)))); [exact Hr'| | |intros v Hv; apply H3; now right].
        + intros v Nv Iv. unfold upd. destruct (Nat.eqb_spec v y) as [->|N]; [exfalso; apply (H3 y); [now left|exact Iv]|]. apply H1; [|exact Iv]. intros [<-|Hv]; [congruence|contradiction].
        + intros v Nv. unfold upd. destruct (Nat.eqb_spec v y); [reflexivity|]. now apply H2. }
    apply (K' Y u t w Hw).
    - intros v _ Hv. rewrite (reach_other Z x0 t v Ht) by (apply D3; now left). reflexivity.
    - intros v Nv. symmetry. now apply (reach_other X).
    - exact D1. }
  split; [|split; [|split]].
  - rewrite E1, <- (set_nan_id Y u) by (intros v Hv; rewrite (reach_other X t u v Hu) by (now apply D1); rewrite (reach_other Z x0 t v Ht) by (apply D3; now right); reflexivity).
    now apply gs_le_marg.
  - unfold gzy. assert (exists w', set_nan X w = w') as (w' & Ew') by eauto.
    assert (R2 : reach X (set_nan X w) w).
    { clear -Hu D1 D2 Hw. assert (forall v, In v X -> exists a, (a < K v)%nat /\ w v = Some (INR a)) as HX.
      { intros v Hv. rewrite (reach_other Y u w v Hw) by (now apply D2). clear -Hu Hv. revert Hv. induction Hu as [t|x X t u a Ha Hr IH]; intros Hv; [destruct Hv|]. destruct (in_dec Nat.eq_dec v X) as [I|N]; [now apply IH|].
        destruct Hv as [->|Hv]; [|contradiction]. exists a. split; [exact Ha|]. rewrite (reach_other _ _ _ v Hr N). now rewrite upd_same. }
      clear Hu D1 D2 Hw. assert (forall X' x', (forall v, In v X' -> exists a, (a < K v)%nat /\ w v = Some (INR a)) -> (forall v, ~ In v X' -> x' v = w v) -> reach X' x' w) as K'.
      { clear. induction X' as [|x X' IH]; intros x' H1 H2.
        - assert (x' = w) as -> by (apply functional_extensionality; intros v; now apply H2). constructor.
        - destruct (H1 x ltac:(now left)) as (a & Ha & Ea). apply (r_cons x X' x' w a Ha). apply IH; [intros v Hv; apply H1; now right|]. intros v Nv. unfold upd. destruct (Nat.eqb_spec v x) as [->|N]; [now rewrite Ea|].
          apply H2. intros [<-|Hv]; [congruence|contradiction]. }
      apply K'; [exact HX|]. intros v Nv. now apply set_nan_out. }
    pose proof (gs_le_marg X _ w NX FX R2) as L. replace (set_nan X (set_nan X w)) with (set_nan X w) in L; [exact L|].
    symmetry. apply set_nan_id. intros v Hv. now apply set_nan_in.
  - rewrite E1, E0, <- (set_nan_id X t) by (intros v Hv; rewrite (reach_other Z x0 t v Ht) by (apply D3; now left); reflexivity). now apply gs_le_marg.
  - unfold gzy. rewrite E0, <- (set_nan_id Y t) by (intros v Hv; rewrite (reach_other Z x0 t v Ht) by (apply D3; now right); reflexivity). now apply gs_le_marg.
Qed.

Definition qw w := gzx w * gzy w / gz w.

(** the product of the conditionals has total mass one *)
Lemma q_total : gs A qw x0 = 1.
Proof.
  destruct parts as (NZ & NX & NY & NXY & NZX & NZY & FZ & FX & FY & D1 & D2 & D3).
  rewrite <- (gs_total Z NZ FZ). unfold A. rewrite gs_app. apply gs_ext_in. intros t Ht.
  assert (TX : forall v, In v X \/ In v Y -> t v = None) by (intros v Hv; rewrite (reach_other Z x0 t v Ht) by (now apply D3); reflexivity).
  assert (EX : gs X G t = G t) by (rewrite gs_marg, set_nan_id by auto; reflexivity).
  assert (EY : gs Y G t = G t) by (rewrite gs_marg, set_nan_id by auto; reflexivity).
  rewrite gs_app. rewrite (gs_ext_in X _ (fun u => (gs Y G t / G t) * G u)).
  - rewrite gs_scal, EX, EY. destruct (Req_dec (G t) 0) as [Z0|NZ0]; [rewrite Z0; lra|field; exact NZ0].
  - intros u Hu.
    assert (SH : forall Y', (forall v, In v Y' -> ~ In v X) -> gs Y' (fun w => G (set_nan X w)) u = gs Y' G (set_nan X u)).
    { clear. intros Y'. revert u. induction Y' as [|y Y' IH]; intros u HD; [reflexivity|]. cbn. apply bsum_ext. intros a _. rewrite IH by (intros v Hv; apply HD; now right). f_equal.
      apply functional_extensionality. intros v. unfold upd. destruct (Nat.eqb_spec v y) as [->|N].
      - rewrite set_nan_out by (apply HD; now left). now rewrite Nat.eqb_refl.
      - destruct (in_dec Nat.eq_dec v X) as [I|N']; [now rewrite !set_nan_in|]. rewrite !set_nan_out by exact N'. destruct (Nat.eqb_spec v y); [contradiction|reflexivity]. }
    assert (ST : set_nan X u = t).
    { rewrite (set_nan_reach X t u Hu). apply set_nan_id. intros v Hv. apply TX. now left. }
    rewrite (gs_ext_in Y _ (fun w => (G u / G t) * G (set_nan X w))).
    + rewrite gs_scal, SH, ST, EY by exact D1. destruct (Req_dec (G t) 0) as [Z0|NZ0]; [|field; exact NZ0].
      rewrite Z0. assert (G u = 0) as ->; [|lra]. apply Rle_antisym; [|apply Gpos]. rewrite <- Z0. rewrite <- (set_nan_id X t) by (intros v Hv; apply TX; now left). now apply gs_le_marg.
    + intros w Hw. unfold qw. assert (gzx w = G u) as ->.
      { unfold gzx. f_equal. rewrite (set_nan_reach Y u w Hw). apply set_nan_id. intros v Hv. rewrite (reach_other X t u v Hu) by (now apply D1). apply TX. now right. }
      assert (gz w = G t) as ->.
      { unfold gz. f_equal. assert (reach (X ++ Y) t w) as Rw by (apply reach_app; eauto). rewrite (set_nan_reach _ t w Rw). apply set_nan_id. intros v Hv. apply in_app_or in Hv. now apply TX. }
      unfold gzy. unfold Rdiv. ring.
Qed.

Lemma q_pos w : reach A x0 w -> 0 <= qw w /\ (0 < G w -> 0 < qw w).
Proof.
  intros Hw. destruct (upper w Hw) as (U1 & U2 & U3 & U4). pose proof (Gpos w). unfold qw. split.
  - destruct (Req_dec (gz w) 0) as [E|N]; [rewrite E; unfold Rdiv; rewrite Rinv_0; lra|].
    assert (0 < gz w) by (assert (0 <= gz w) by apply Gpos; lra).
    assert (0 <= gzx w) by apply Gpos. assert (0 <= gzy w) by apply Gpos. apply Rmult_le_pos; [now apply Rmult_le_pos|]. left. now apply Rinv_0_lt_compat.
  - intros P. apply Rdiv_lt_0_compat; [apply Rmult_lt_0_compat; lra|lra].
Qed.

Lemma cmi_sum : H (Z ++ X) + H (Z ++ Y) - H Z - H A = gs A (fun w => qw w - G w - G w * (ln (qw w) - ln (G w))) x0.
Proof.
  rewrite H_z, H_zx, H_zy. unfold H.
  rewrite (gs_ext_in A (fun w => qw w - G w - G w * (ln (qw w) - ln (G w))) (fun w => (qw w - G w) - (((G w * ln (gzx w) + G w * ln (gzy w)) - G w * ln (gz w)) - G w * ln (G w)))).
  - rewrite !gs_minus, !gs_plus. pose proof (gs_total A ND F) as GT. fold x0 in GT |- *. rewrite q_total, GT. ring.
  - intros w Hw. destruct (upper w Hw) as (U1 & U2 & U3 & U4). destruct (Gpos w) as [P|E]; [|rewrite <- E; ring].
    unfold qw. rewrite ln_div, ln_mult; try lra. apply Rmult_lt_0_compat; lra.
Qed.

Lemma cmi_nonneg : 0 <= H (Z ++ X) + H (Z ++ Y) - H Z - H A.
Proof.
  rewrite cmi_sum. apply gs_nonneg. intros w Hw. destruct (q_pos w Hw) as [Q1 Q2]. pose proof (gibbs1 (G w) (qw w) (Gpos w) Q1 Q2). lra.
Qed.

Lemma cmi_zero : H (Z ++ X) + H (Z ++ Y) - H Z - H A = 0 <-> (forall w, reach A x0 w -> G w * gz w = gzx w * gzy w).
Proof.
  rewrite cmi_sum. split.
  - intros E w Hw. assert (qw w = G w) as Eq.
    { destruct (q_pos w Hw) as [Q1 Q2]. apply gibbs1_eq; auto.
      apply (gs_nonneg_zero A (fun w => qw w - G w - G w * (ln (qw w) - ln (G w))) x0); auto.
      intros u Hu. destruct (q_pos u Hu) as [P1 P2]. pose proof (gibbs1 (G u) (qw u) (Gpos u) P1 P2). lra. }
    rewrite <- Eq. unfold qw. destruct (Req_dec (gz w) 0) as [E0|N]; [|field; exact N].
    destruct (upper w Hw) as (U1 & U2 & U3 & U4). assert (gzx w = 0) as -> by (apply Rle_antisym; [lra|apply Gpos]). lra.
  - intros E. rewrite (gs_ext_in A _ (fun w => 0 * G w)); [rewrite gs_scal; ring|]. intros w Hw. assert (qw w = G w) as Eq.
    { unfold qw. rewrite <- E by exact Hw. destruct (Req_dec (gz w) 0) as [E0|N]; [|field; exact N].
      destruct (upper w Hw) as (U1 & U2 & U3 & U4). assert (G w = 0) as -> by (apply Rle_antisym; [lra|apply Gpos]). rewrite E0. unfold Rdiv. ring. }
    rewrite Eq. ring.
Qed.
End CMI.

End G.
