(** Every family is normalised over its range; circuits on concrete leaves. *)
From Coq Require Import List Arith ZArith Bool Reals Lra Lia.
From Coquelicot Require Import Coquelicot.
From Verif Require Import Base ScopeModel CircuitModel CircuitBasics CircuitEval Integral CircuitMarg CircuitSpec CircuitProps LeafModel LeafSpec LeafProofs GaussInt LeafNorm.
Import ListNotations.
Local Open Scope R_scope.

Lemma pr_out fm k : supp fm (INR k) = false -> pr (fam_lp fm (INR k)) = 0.
Proof. intros H. unfold fam_lp. now rewrite H. Qed.

(** the number of values of a finite family *)
Definition card (fm : fam) : nat :=
  match fm with FBernoulli _ => 2 | FCategorical K _ => K | FBinomial n _ => S n | FHyper _ _ n => S n | _ => 0 end.

Lemma finite_total fm : fam_ok fm = true -> (match fm with FBernoulli _ | FCategorical _ _ | FBinomial _ _ | FHyper _ _ _ => True | _ => False end) ->
  bsum (card fm) (fun k => pr (fam_lp fm (INR k))) = 1.
Proof.
  intros Hok. destruct fm as [l|K z|n l|l|lr|r l|K N n|lo hi|lr|m ls|m ls]; intros []; cbn [card].
  - cbn [bsum]. rewrite !pr_bernoulli by lia. cbn. lra.
  - cbn in Hok. apply Nat.ltb_lt in Hok. rewrite <- (softmax_sum K z) by lia. apply bsum_ext. intros k Hk. now apply pr_categorical.
  - pose proof (binomial (sigmoid l) (1 - sigmoid l) n) as B. replace (sigmoid l + (1 - sigmoid l)) with 1 in B by ring.
    rewrite pow1, sum_f_bsum in B. rewrite B. apply bsum_ext. intros k Hk. apply pr_binomial. lia.
  - cbn in Hok. apply andb_true_iff in Hok. destruct Hok as [H1 H2]. apply Nat.leb_le in H1, H2.
    rewrite (bsum_ext _ _ (fun k => ch K k * ch (N - K) (n - k) / ch N n)) by (intros k Hk; apply pr_hyper; lia).
    rewrite bsum_div, vandermonde. replace (K + (N - K))%nat with N by lia. field.
    pose proof (ch_fact N n H2) as E. intros Z. rewrite Z, Rmult_0_l in E. pose proof (INR_fact_lt_0 N). lra.
Qed.

Lemma finite_out fm k : (match fm with FBernoulli _ | FCategorical _ _ | FBinomial _ _ | FHyper _ _ _ => True | _ => False end) ->
  (card fm <= k)%nat -> pr (fam_lp fm (INR k)) = 0.
Proof.
  intros Hf Hk. apply pr_out. destruct fm; try contradiction; cbn [supp card] in *; rewrite asnat_INR.
  - apply Nat.ltb_ge. lia.
  - apply Nat.ltb_ge. lia.
  - apply Nat.leb_gt. lia.
  - apply andb_false_iff. right. apply Nat.leb_gt. lia.
Qed.

Lemma geom_total l : infinite_sum (fun k => pr (fam_lp (FGeometric l) (INR k))) 1.
Proof.
  apply infinite_sum_is_series. pose proof (sigmoid_range l) as S.
  apply is_series_ext with (a := fun k => sigmoid l * (1 - sigmoid l) ^ k); [intros; now rewrite pr_geometric|].
  pose proof (is_series_scal (sigmoid l) _ _ (is_series_geom (1 - sigmoid l) ltac:(rewrite Rabs_pos_eq; lra))) as G.
  unfold scal in G. cbn in G. unfold mult in G. cbn in G.
  replace (sigmoid l * / (1 - (1 - sigmoid l))) with 1 in G by (field; lra). exact G.
Qed.

Lemma poisson_total lr : infinite_sum (fun k => pr (fam_lp (FPoisson lr) (INR k))) 1.
Proof.
  apply infinite_sum_is_series.
  apply is_series_ext with (a := fun k => exp (- exp lr) * (/ INR (fact k) * exp lr ^ k)).
  - intros k. rewrite pr_poisson. match goal with |- ?a = ?b => change (@eq R a b) end. unfold Rdiv. ring.
  - assert (is_series (fun k => / INR (fact k) * exp lr ^ k) (exp (exp lr))) as E.
    { apply infinite_sum_is_series. unfold exp at 2. destruct (exist_exp (exp lr)) as [y Hy]. exact Hy. }
    pose proof (is_series_scal (exp (- exp lr)) _ _ E) as G. unfold scal in G. cbn in G. unfold mult in G. cbn in G.
    rewrite <- exp_plus in G. replace (- exp lr + exp lr) with 0 in G by ring. now rewrite exp_0 in G.
Qed.

Lemma negbin_total r l : infinite_sum (fun k => pr (fam_lp (FNegBin r l) (INR k))) 1.
Proof.
  destruct r as [|r].
  - change (sums DNat (fun a => pr (fam_lp (FNegBin 0 l) a)) 1). apply (sums_fin_DNat 1).
    + intros k Hk. rewrite pr_negbin. destruct k; [lia|reflexivity].
    + cbn [bsum]. rewrite pr_negbin. cbn. lra.
  - apply infinite_sum_is_series. pose proof (sigmoid_range l) as S.
    apply is_series_ext with (a := fun k => (1 - sigmoid l) ^ (Datatypes.S r) * (Binomial.C (r + k) k * sigmoid l ^ k)).
    + intros k. rewrite pr_negbin. cbn [Nat.eqb]. replace (Datatypes.S r + k - 1)%nat with (r + k)%nat by lia. match goal with |- ?a = ?b => change (@eq R a b) end. ring.
    + pose proof (is_series_scal ((1 - sigmoid l) ^ (Datatypes.S r)) _ _ (negbin_series r (sigmoid l) S)) as G.
      assert ((1 - sigmoid l) ^ (Datatypes.S r) * / (1 - sigmoid l) ^ (Datatypes.S r) = 1) as E1 by (apply Rinv_r, pow_nonzero; lra).
      change (is_series (fun k => (1 - sigmoid l) ^ (Datatypes.S r) * (Binomial.C (r + k) k * sigmoid l ^ k)) ((1 - sigmoid l) ^ (Datatypes.S r) * / (1 - sigmoid l) ^ (Datatypes.S r))) in G.
      rewrite E1 in G. exact G.
Qed.

Lemma fam_norm fm : fam_ok fm = true -> sums (range_of fm) (fun a => pr (fam_lp fm a)) 1.
Proof.
  intros Hok. destruct fm as [l|K z|n l|l|lr|r l|K N n|lo hi|lr|m ls|m ls]; cbn [range_of].
  - change [0; 1] with (map INR (seq 0 2)). apply sums_fin_nat. apply (finite_total _ Hok I).
  - apply sums_fin_nat. apply (finite_total _ Hok I).
  - apply sums_fin_nat. apply (finite_total _ Hok I).
  - apply geom_total.
  - apply poisson_total.
  - apply negbin_total.
  - apply sums_fin_nat. apply (finite_total _ Hok I).
  - apply uniform_norm. cbn in Hok. unfold rlt in Hok. destruct (Rlt_dec lo hi); [assumption|discriminate].
  - apply exponential_norm.
  - apply laplace_norm.
  - apply normal_norm.
Qed.

(** a discrete family is also normalised over all naturals *)
Lemma fam_norm_nat fm : fam_ok fm = true -> discrete fm -> sums DNat (fun a => pr (fam_lp fm a)) 1.
Proof.
  intros Hok HD. destruct fm as [l|K z|n l|l|lr|r l|K N n|lo hi|lr|m ls|m ls]; cbn [range_of] in HD; try (exfalso; apply HD; reflexivity).
  - apply (sums_fin_DNat 2); [intros; now apply finite_out|apply (finite_total _ Hok I)].
  - apply (sums_fin_DNat K); [intros; now apply finite_out|apply (finite_total _ Hok I)].
  - apply (sums_fin_DNat (S n)); [intros; now apply finite_out|apply (finite_total _ Hok I)].
  - apply geom_total.
  - apply poisson_total.
  - apply negbin_total.
  - apply (sums_fin_DNat (S n)); [intros; now apply finite_out|apply (finite_total _ Hok I)].
Qed.

Lemma fits_norm d fm : fam_ok fm = true -> fits d fm -> sums d (fun a => pr (fam_lp fm a)) 1.
Proof. intros H [->|[HD ->]]; [now apply fam_norm|now apply fam_norm_nat]. Qed.

Lemma family_leaves_norm D m : Forall (family_leaf D) (leaves_of m) -> leaves_norm D m.
Proof.
  intros H. eapply Forall_impl; [|exact H]. intros l (fl & mode & -> & F) f c r Hf Hc Hr. cbn in *.
  destruct (F f c r Hf Hc Hr) as [A B]. exact (fits_norm _ _ A B).
Qed.

Lemma families_normalised D m s f c r :
  built m -> aligned m -> Forall (family_leaf D) (leaves_of m) -> ll_shape m = Ok s -> in_shape s f c r ->
  forall vs x, NoDup vs -> (forall v, In v vs <-> In v (nth f (fts m) [])) ->
  sums_over D vs (fun y => prob m y f c r) x 1.
Proof. intros B A L. apply c01; auto. now apply family_leaves_norm. Qed.

(** ** what log_likelihood computes (C87) *)
Lemma allb_true n p : allb n p = true <-> forall i, (i < n)%nat -> p i = true.
Proof.
  unfold allb. rewrite forallb_forall. split; intros H i Hi; apply H; [apply in_seq; lia|apply in_seq in Hi; lia].
Qed.
Lemma allb_false n p : allb n p = false <-> exists i, (i < n)%nat /\ p i = false.
Proof.
  split.
  - intros H. destruct (existsb (fun i => negb (p i)) (seq 0 n)) eqn:E.
    + apply existsb_exists in E. destruct E as (i & Hi & E). apply in_seq in Hi. exists i. split; [lia|]. now apply negb_true_iff.
    + exfalso. assert (allb n p = true) as T; [|congruence]. apply allb_true. intros i Hi.
      destruct (p i) eqn:Ep; [reflexivity|]. assert (existsb (fun i => negb (p i)) (seq 0 n) = true) as X; [|congruence].
      apply existsb_exists. exists i. split; [apply in_seq; lia|now rewrite Ep].
  - intros (i & Hi & E). destruct (allb n p) eqn:T; [|reflexivity]. rewrite (proj1 (allb_true n p) T i Hi) in E. discriminate.
Qed.

Definition entries (l : fleaf) (f c r : nat) : Prop :=
  (f < length (query (fl_scope l)) /\ c < fl_ch l /\ r < fl_rep l)%nat.

Lemma validates_true l x : validates l x = true <-> forall f c r, entries l f c r -> vsupp l f c r (imputed l x f) = true.
Proof.
  unfold validates, entries. rewrite allb_true. split.
  - intros H f c r (Hf & Hc & Hr). specialize (H f Hf). rewrite allb_true in H. specialize (H c Hc). rewrite allb_true in H. auto.
  - intros H f Hf. apply allb_true. intros c Hc. apply allb_true. intros r Hr. auto.
Qed.
Lemma validates_false l x : validates l x = false <-> exists f c r, entries l f c r /\ vsupp l f c r (imputed l x f) = false.
Proof.
  unfold validates, entries. rewrite allb_false. split.
  - intros (f & Hf & H). apply allb_false in H. destruct H as (c & Hc & H). apply allb_false in H. destruct H as (r & Hr & H). eauto 8.
  - intros (f & c & r & (Hf & Hc & Hr) & H). exists f. split; [assumption|]. apply allb_false. exists c. split; [assumption|].
    apply allb_false. eauto.
Qed.

Lemma vsupp_common l f c r a : common_support l -> entries l f c r -> vsupp l f c r a = supp (fl_fam l f c r) a.
Proof.
  intros H E. unfold vsupp. pose proof (H f c r E a) as X. destruct (fl_fam l f c r) eqn:F; auto.
Qed.

Lemma supported_in fm : fam_ok fm = true -> imputable fm -> supp fm (supported_value fm) = true.
Proof.
  intros Hok HI. destruct fm as [l|K z|n l|l|lr|r l|K N n|lo hi|lr|m ls|m ls]; cbn [supp supported_value imputable fam_ok] in *;
    rewrite ?asnat_0, ?asnat_1; try reflexivity.
  - apply Nat.ltb_lt. lia.
  - rewrite asnat_INR. apply andb_true_iff in Hok. destruct Hok as [H1 H2]. apply Nat.leb_le in H1, H2.
    apply andb_true_iff. split; [apply Nat.leb_refl|apply Nat.leb_le; lia].
  - unfold rlt in Hok. destruct (Rlt_dec lo hi); [|discriminate]. apply andb_true_iff. unfold rle.
    split; [destruct (Rle_dec lo lo)|destruct (Rle_dec lo hi)]; auto; lra.
  - unfold rle. destruct (Rle_dec 0 0); [reflexivity|lra].
Qed.

Lemma fleaf_ll_spec sc ch rep fams x (l := mk_fleaf sc ch rep fams) :
  (0 < ch)%nat -> (0 < rep)%nat -> common_support l ->
  (forall f, (f < length (query sc))%nat -> fam_ok (fams f 0 0)%nat = true /\ imputable (fams f 0 0)%nat) ->
  (fleaf_ll l x = Err <-> exists f a, (f < length (query sc))%nat /\ x (nth f (query sc) 0%nat) = Some a /\ supp (fams f 0 0)%nat a = false) /\
  (forall t, fleaf_ll l x = Ok t -> forall mode f c r, entries l f c r -> t f c r = leaf_score x (fl_leaf l mode) f c r).
Proof.
  intros Hc Hr CS HO.
  assert (forall f c r, entries l f c r -> forall a, supp (fams f c r) a = supp (fams f 0 0)%nat a) as ES.
  { intros f c r E a. exact (CS f c r E a). }
  split.
  - unfold fleaf_ll. destruct (validates l x) eqn:V.
    + split; [discriminate|]. intros (f & a & Hf & Hx & Ha). exfalso. rewrite validates_true in V.
      assert (entries l f 0 0) as E by (unfold entries; cbn; lia). specialize (V f 0%nat 0%nat E).
      rewrite (vsupp_common l f 0%nat 0%nat _ CS E) in V. unfold imputed in V. cbn in V. rewrite Hx in V. cbn in V. congruence.
    + split; [intros _|auto]. apply validates_false in V. destruct V as (f & c & r & E & V).
      rewrite (vsupp_common l f c r _ CS E) in V. unfold imputed in V. cbn in V.
      destruct E as (Hf & Hc' & Hr') eqn:EE. cbn in Hf, Hc', Hr'. clear EE.
      rewrite (ES f c r (conj Hf (conj Hc' Hr'))) in V.
      destruct (x (nth f (query sc) 0%nat)) as [a|] eqn:Ex; [eauto|]. exfalso.
      destruct (HO f Hf) as [A B]. rewrite (supported_in _ A B) in V. discriminate.
  - unfold fleaf_ll. destruct (validates l x) eqn:V; [|discriminate]. intros t [= <-] mode f c r E.
    unfold leaf_score. cbn. destruct (x (nth f (query sc) 0%nat)) as [a|] eqn:Ex; [|reflexivity].
    unfold fam_lp. rewrite validates_true in V. specialize (V f c r E). rewrite (vsupp_common l f c r _ CS E) in V.
    unfold imputed in V. cbn in V. rewrite Ex in V. cbn in V. now rewrite V.
Qed.
