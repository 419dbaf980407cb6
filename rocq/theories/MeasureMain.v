(** Exact entropy and mutual information. *)
From Coq Require Import List Arith Bool Lia Lra FunctionalExtensionality Permutation.
From Verif Require Import Base ScopeModel ScopeProofs CircuitModel CircuitSpec CircuitBasics CircuitEval Integral CircuitMarg CircuitProps MeasureModel MeasureProofs MeasureTop LayerProofs.
Import ListNotations.
Local Open Scope R_scope.

Lemma gs_upd K r g v b x : ~ In v r -> gsum K r (fun w => g (upd w v b)) x = gsum K r g (upd x v b).
Proof.
  revert x. induction r as [|u r IH]; intros x N; [reflexivity|]. cbn. apply bsum_ext. intros a _. rewrite IH by (intros H; apply N; now right).
  f_equal. apply upd_comm. intros ->. apply N. now left.
Qed.

Lemma grid_gsum K q : NoDup q -> forall g : row -> R, lsumR (map (fun vals => g (fill q vals)) (grid K q)) = gsum K q g (fun _ => None).
Proof.
  induction q as [|v q IH]; intros ND g.
  - cbn. ring.
  - inversion ND as [|? ? N ND']; subst. cbn [grid gsum]. rewrite <- lsumR_seq. rewrite lsumR_flat_map. f_equal. apply map_ext. intros a.
    rewrite map_map. cbn [fill]. rewrite (IH ND' (fun w => g (upd w v (Some (INR a))))). now apply gs_upd.
Qed.

(** the variable [v] has [k] states in every leaf that mentions it *)
Definition discrete (kind : leaf -> option nat) (m : module) (v k : nat) : Prop :=
  (1 <= k)%nat /\ (exists l, In l (leaves_of m) /\ In v (query (l_scope l))) /\
  forall l, In l (leaves_of m) -> In v (query (l_scope l)) -> kind l = Some k.

Definition states (kind : leaf -> option nat) (m : module) (v : nat) : nat :=
  match sizes kind m v with Some k :: _ => k | _ => 0%nat end.

Section E.
Variable kind : leaf -> option nat.

Lemma sizes_in m v k : In k (sizes kind m v) <-> exists l, In l (leaves_of m) /\ In v (query (l_scope l)) /\ kind l = k.
Proof.
  unfold sizes. rewrite in_map_iff. split.
  - intros (l & E & H). apply filter_In in H. destruct H as [H1 H2]. apply memb_In in H2. eauto.
  - intros (l & H1 & H2 & E). exists l. split; [exact E|]. apply filter_In. split; [exact H1|now apply memb_In].
Qed.

Lemma infer_is m q K : infer_domains kind m q = Ok K -> K = states kind m.
Proof.
  unfold infer_domains. destruct (negb _); [discriminate|]. destruct (existsb _ q); [discriminate|]. destruct (negb _); [discriminate|]. intros E. now injection E as <-.
Qed.
Lemma infer_ok m q K : infer_domains kind m q = Ok K -> forall v, In v q -> discrete kind m v (states kind m v).
Proof.
  unfold infer_domains. destruct (forallb _ q) eqn:E1; [|discriminate]. cbn [negb]. destruct (existsb _ q) eqn:E2; [discriminate|]. destruct (negb (forallb _ q)) eqn:E3; [discriminate|]. intros _ v Hv.
  apply negb_false_iff in E3. rewrite forallb_forall in E1, E3. specialize (E1 v Hv). specialize (E3 v Hv). cbn beta in E1, E3.
  assert (NE : sizes kind m v <> []).
  { intros Z. enough (existsb (fun v => match sizes kind m v with [] => true | _ => false end) q = true) by congruence. apply existsb_exists. exists v. split; [exact Hv|]. now rewrite Z. }
  unfold states, discrete. destruct (sizes kind m v) as [|k0 ks] eqn:ES; [congruence|]. cbn [forallb] in E1. apply andb_true_iff in E1. destruct E1 as [S0 S1].
  destruct k0 as [k|]; [|discriminate]. cbn in S0. apply negb_true_iff, Nat.ltb_ge in S0. split; [exact S0|]. split.
  - assert (In (Some k) (sizes kind m v)) as I by (rewrite ES; now left). apply sizes_in in I. destruct I as (l & H1 & H2 & _). eauto.
  - intros l H1 H2. assert (In (kind l) (sizes kind m v)) as I by (apply sizes_in; eauto). rewrite ES in I. destruct I as [I|I]; [now symmetry|].
    rewrite forallb_forall in E3. specialize (E3 (kind l) I). destruct (kind l) as [a|]; [|discriminate]. apply Nat.eqb_eq in E3. now subst.
Qed.
Lemma infer_total m q : (forall v, In v q -> exists k, discrete kind m v k) -> infer_domains kind m q = Ok (states kind m).
Proof.
  intros H. unfold infer_domains.
  assert (ALL : forall v k, discrete kind m v k -> forall o, In o (sizes kind m v) -> o = Some k).
  { intros v k (_ & _ & A) o Ho. apply sizes_in in Ho. destruct Ho as (l & H1 & H2 & <-). now apply A. }
  replace (forallb (fun v => forallb supported (sizes kind m v)) q) with true; cbn [negb].
  2:{ symmetry. apply forallb_forall. intros v Hv. apply forallb_forall. intros o Ho. destruct (H v Hv) as (k & Hk). rewrite (ALL v k Hk o Ho). cbn. apply negb_true_iff, Nat.ltb_ge. apply Hk. }
  replace (existsb _ q) with false.
  2:{ symmetry. apply not_true_iff_false. intros E. apply existsb_exists in E. destruct E as (v & Hv & E). destruct (H v Hv) as (k & _ & (l & H1 & H2) & _).
      assert (In (kind l) (sizes kind m v)) as I by (apply sizes_in; eauto). destruct (sizes kind m v); [destruct I|discriminate]. }
  replace (forallb _ q) with true; [reflexivity|]. symmetry. apply forallb_forall. intros v Hv. destruct (H v Hv) as (k & Hk). pose proof (ALL v k Hk) as A.
  destruct (sizes kind m v) as [|k0 ks]; [reflexivity|]. apply forallb_forall. intros o Ho. rewrite (A o), (A k0) by (now left) || (now right). apply Nat.eqb_refl.
Qed.
Lemma discrete_states m v k : discrete kind m v k -> states kind m v = k.
Proof.
  intros (H1 & (l & H2 & H3) & H4). unfold states. destruct (sizes kind m v) as [|o os] eqn:E.
  - assert (In (kind l) (sizes kind m v)) as I by (apply sizes_in; eauto). rewrite E in I. destruct I.
  - assert (In o (sizes kind m v)) as I by (rewrite E; now left). apply sizes_in in I. destruct I as (l' & A1 & A2 & <-). now rewrite (H4 l' A1 A2).
Qed.

(** the model's columns *)
Definition columns_fit (m : module) (q : list nat) : Prop :=
  forall v, In v q \/ vars m v -> (v < length (query (scope_of m)))%nat.

Lemma entropy_spec ca ra m sc h : entropy kind ca ra m sc = Ok h <->
  query sc <> [] /\ (forall v, In v (query sc) -> exists k, discrete kind m v k) /\ columns_fit m (query sc) /\
  exists s, ll_shape m = Ok s /\
  h = - lsumR (map (fun vals => plogp (reduce_ll ca ra s (loglik m (fill (query sc) vals)))) (grid (states kind m) (query sc))).
Proof.
  unfold entropy, columns_fit. split.
  - destruct (scope_empty sc) eqn:E0; [discriminate|]. destruct (infer_domains kind m (query sc)) as [K|] eqn:E1; [|discriminate]. cbn [bind].
    destruct (forallb _ (query sc)) eqn:E2; [|discriminate]. destruct (forallb _ (query (scope_of m))) eqn:E3; [|discriminate]. cbn [negb].
    destruct (ll_shape m) as [s|] eqn:E4; [|discriminate]. cbn [bind]. intros E. injection E as <-. rewrite forallb_forall in E2, E3.
    split; [unfold scope_empty in E0; destruct (query sc); [discriminate|congruence]|]. split; [intros v Hv; eexists; eapply infer_ok; eauto|]. split.
    + intros v [Hv|Hv]; [apply Nat.ltb_lt, (E2 v Hv)|apply Nat.ltb_lt, (E3 v Hv)].
    + exists s. split; [reflexivity|]. now rewrite (infer_is _ _ _ E1).
  - intros (H0 & H1 & H2 & s & H3 & ->). replace (scope_empty sc) with false by (unfold scope_empty; destruct (query sc); [congruence|reflexivity]).
    rewrite (infer_total m (query sc) H1). cbn [bind].
    rewrite (proj2 (forallb_forall _ (query sc))) by (intros v Hv; apply Nat.ltb_lt, H2; now left).
    rewrite (proj2 (forallb_forall _ (query (scope_of m)))) by (intros v Hv; apply Nat.ltb_lt, H2; now right).
    cbn [negb]. rewrite H3. reflexivity.
Qed.

Lemma plogp_pr l : plogp l = pr l * ln (pr l).
Proof. destruct l; cbn; [ring|]. now rewrite ln_exp. Qed.

Section One.
Variables (ca ra : agg) (m : module) (s : shape) (D : nat -> domain).
Hypothesis B : built m.
Hypothesis A : aligned m.
Hypothesis N : leaves_norm D m.
Hypothesis L : ll_shape m = Ok s.
Hypothesis RP : (0 < repetitions s)%nat.
Hypothesis AC : averages ca (channels s).
Hypothesis AR : averages ra (repetitions s).
(** the leaf classes recognised as k-state ones are so *)
Hypothesis KD : forall l k v, In l (leaves_of m) -> kind l = Some k -> In v (query (l_scope l)) -> D v = DFin (map INR (seq 0 k)).

Notation P := (marg ca ra m s).
Notation K := (states kind m).
Definition okv (v : nat) : Prop := exists k, discrete kind m v k.

Lemma P_pos x : 0 <= P x. Proof. apply pr_nonneg. Qed.
Lemma P_sum v x : okv v -> bsum (K v) (fun a => P (upd x v (Some (INR a)))) = P (upd x v None).
Proof.
  intros (k & Hk). rewrite (discrete_states m v k Hk). destruct Hk as (H1 & (l & H2 & H3) & H4).
  apply (marg_sum ca ra m s B L RP A D N); [eapply leaf_in_scope; eauto; now apply built_wf|]. eapply KD; eauto.
Qed.
Lemma P_one : P (fun _ => None) = 1.
Proof. now apply marg_one. Qed.

Lemma entropy_H sc h : NoDup (query sc) -> entropy kind ca ra m sc = Ok h -> h = H K P (query sc) /\ Forall okv (query sc) /\ query sc <> [].
Proof.
  intros ND E. apply entropy_spec in E. destruct E as (H0 & H1 & H2 & s' & H3 & ->). rewrite L in H3. injection H3 as <-.
  split; [|split; [now apply Forall_forall|exact H0]]. unfold H. f_equal. rewrite <- (grid_gsum K (query sc) ND (fun w => P w * ln (P w))). f_equal. apply map_ext. intros vals. now rewrite plogp_pr.
Qed.

Lemma disjb_NoDup a b : NoDup a -> NoDup b -> disjb a b = true -> NoDup (a ++ b).
Proof.
  intros Ha Hb Hd. apply NoDup_app_intro; auto. intros v H1 H2. apply (proj1 (disjb_spec a b) Hd v H1 H2).
Qed.

Lemma mi_H x y i : NoDup (query x) -> NoDup (query y) -> mutual_information kind ca ra m x y = Ok i ->
  i = H K P (query x) + H K P (query y) - H K P (query x ++ query y) /\ NoDup (query x ++ query y) /\ Forall okv (query x ++ query y).
Proof.
  intros Nx Ny. unfold mutual_information. destruct (disjb (query x) (query y)) eqn:ED; [|discriminate]. cbn [negb].
  destruct (entropy kind ca ra m x) as [hx|] eqn:E1; [|discriminate]. cbn [bind]. destruct (entropy kind ca ra m y) as [hy|] eqn:E2; [|discriminate]. cbn [bind].
  destruct (scope_init_nat (query x ++ query y) []) as [xy|] eqn:E3; [|discriminate]. cbn [bind]. destruct (entropy kind ca ra m xy) as [hxy|] eqn:E4; [|discriminate]. cbn [bind].
  intros E. injection E as <-. apply scope_init_nat_ok in E3. destruct E3 as [-> V]. pose proof (disjb_NoDup _ _ Nx Ny ED) as ND.
  destruct (entropy_H x hx Nx E1) as (-> & _). destruct (entropy_H y hy Ny E2) as (-> & _). destruct (entropy_H (mkScope (query x ++ query y) []) hxy ND E4) as (-> & FF & _).
  cbn [query]. auto.
Qed.
Lemma cmi_H x y z i : conditional_mutual_information kind ca ra m x y z = Ok i ->
  i = H K P (query x ++ query z) + H K P (query y ++ query z) - H K P (query z) - H K P (query x ++ query y ++ query z) /\
  NoDup (query x ++ query y ++ query z) /\ Forall okv (query x ++ query y ++ query z).
Proof.
  unfold conditional_mutual_information. destruct (has_dup _) eqn:ED; [discriminate|].
  destruct (entropy kind ca ra m z) as [hz|] eqn:E1; [|discriminate]. cbn [bind].
  destruct (scope_init_nat (query x ++ query z) []) as [xz|] eqn:E2; [|discriminate]. cbn [bind]. destruct (entropy kind ca ra m xz) as [hxz|] eqn:E3; [|discriminate]. cbn [bind].
  destruct (scope_init_nat (query y ++ query z) []) as [yz|] eqn:E4; [|discriminate]. cbn [bind]. destruct (entropy kind ca ra m yz) as [hyz|] eqn:E5; [|discriminate]. cbn [bind].
  destruct (scope_init_nat (query x ++ query y ++ query z) []) as [xyz|] eqn:E6; [|discriminate]. cbn [bind]. destruct (entropy kind ca ra m xyz) as [hxyz|] eqn:E7; [|discriminate]. cbn [bind].
  intros E. injection E as <-. apply scope_init_nat_ok in E2, E4, E6. destruct E2 as [-> V2], E4 as [-> V4], E6 as [-> V6].
  assert (NZ : NoDup (query z)). { destruct V2 as (V2 & _). cbn in V2. revert V2. generalize (query x). induction l as [|a l IH]; [auto|]. intros H; inversion H; auto. }
  destruct (entropy_H z hz NZ E1) as (-> & _).
  destruct (entropy_H (mkScope (query x ++ query z) []) hxz (proj1 V2) E3) as (-> & _).
  destruct (entropy_H (mkScope (query y ++ query z) []) hyz (proj1 V4) E5) as (-> & _).
  destruct (entropy_H (mkScope (query x ++ query y ++ query z) []) hxyz (proj1 V6) E7) as (-> & FF & _).
  cbn [query]. split; [reflexivity|]. split; [exact (proj1 V6)|exact FF].
Qed.
End One.
End E.
