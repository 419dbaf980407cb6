(** C48, C146-C152: spflow/measures *)
From Coq Require Import List Arith Bool Lia Lra FunctionalExtensionality Permutation.
From Verif Require Import Base ScopeModel ScopeProofs CircuitModel CircuitSpec CircuitBasics CircuitEval Integral CircuitMarg CircuitProps MargModel MargProofs CircuitExamples SampleSpec LayerProofs MeasureModel MeasureProofs MeasureTop MeasureMain MeasureEnd.
Import ListNotations.
Local Open Scope R_scope.

(** a circuit with normalised leaves, an averaging aggregation, and leaf classes
    recognised as k-state only where they are *)
Record measured (kind : leaf -> option nat) (ca ra : agg) (D : nat -> domain) (m : module) (s : shape) : Prop := {
  me_built : built m; me_aligned : aligned m; me_norm : leaves_norm D m; me_shape : ll_shape m = Ok s;
  me_reps : (0 < repetitions s)%nat; me_ca : averages ca (channels s); me_ra : averages ra (repetitions s);
  me_kind : forall l k v, In l (leaves_of m) -> kind l = Some k -> In v (query (l_scope l)) -> D v = DFin (map INR (seq 0 k)) }.

(** the probabilities below are marginals of one distribution: summing out a
    variable blanks it, and the blank row has probability one *)
Theorem C48_marginals : forall kind ca ra D m s, measured kind ca ra D m s ->
  (forall x, 0 <= marg ca ra m s x) /\ marg ca ra m s (fun _ => None) = 1 /\
  (forall v k x, discrete kind m v k -> bsum k (fun a => marg ca ra m s (upd x v (Some (INR a)))) = marg ca ra m s (upd x v None)) /\
  (forall x y, (forall v, vars m v -> x v = y v) -> marg ca ra m s x = marg ca ra m s y).
Proof.
  intros kind ca ra D m s M. destruct M. split; [intros; apply pr_nonneg|]. split; [now apply marg_one|]. split; [|intros; now apply marg_local].
  intros v k x Hk. pose proof (discrete_states kind m v k Hk) as E. rewrite <- E. apply (P_sum kind ca ra m s D); auto. now exists k.
Qed.

(** when entropy is defined *)
Theorem C48_entropy_defined : forall kind ca ra m sc,
  (exists h, entropy kind ca ra m sc = Ok h) <->
  query sc <> [] /\ (forall v, In v (query sc) -> exists k, discrete kind m v k) /\
  (forall v, In v (query sc) \/ vars m v -> (v < length (query (scope_of m)))%nat) /\ exists s, ll_shape m = Ok s.
Proof.
  intros kind ca ra m sc. split.
  - intros (h & E). apply entropy_spec in E. destruct E as (H0 & H1 & H2 & s & H3 & _). eauto 6.
  - intros (H0 & H1 & H2 & s & H3). eexists. apply entropy_spec. split; [exact H0|]. split; [exact H1|]. split; [exact H2|]. exists s. split; [exact H3|reflexivity].
Qed.

(** it is Shannon's entropy of the circuit's distribution, between zero and the log
    of the number of states *)
Theorem C48_entropy : forall kind ca ra D m s sc h, measured kind ca ra D m s -> NoDup (query sc) -> entropy kind ca ra m sc = Ok h ->
  h = - gsum (states kind m) (query sc) (fun w => marg ca ra m s w * ln (marg ca ra m s w)) (fun _ => None) /\
  0 <= h <= lsumR (map (fun v => ln (INR (states kind m v))) (query sc)).
Proof.
  intros kind ca ra D m s sc h M ND E. destruct M as [B A N L RP AC AR KD]. destruct (entropy_H kind ca ra m s L sc h ND E) as (-> & F & NE). split; [reflexivity|].
  pose proof (P_sum kind ca ra m s D B A N L RP KD) as PS. pose proof (P_one ca ra m s B A L RP AC AR) as P1. pose proof (P_pos ca ra m s) as P0.
  split; [apply (H_nonneg _ _ (okv kind m)); auto|]. pose proof (H_max _ _ (okv kind m) P0 PS P1 (query sc) ND F) as G.
  replace (lsumR (map (fun v => ln (INR (states kind m v))) (query sc))) with (lstates (states kind m) (query sc)); [exact G|]. clear. induction (query sc); [reflexivity|]. cbn. now rewrite IHl.
Qed.

(** more variables, more entropy *)
Theorem C48_entropy_monotone : forall kind ca ra D m s sc sc' h h', measured kind ca ra D m s -> NoDup (query sc) -> NoDup (query sc') -> incl (query sc) (query sc') ->
  entropy kind ca ra m sc = Ok h -> entropy kind ca ra m sc' = Ok h' -> h <= h'.
Proof.
  intros kind ca ra D m s sc sc' h h' M ND ND' HI E E'. destruct M as [B A N L RP AC AR KD].
  destruct (entropy_H kind ca ra m s L sc h ND E) as (-> & _ & _). destruct (entropy_H kind ca ra m s L sc' h' ND' E') as (-> & F' & _).
  set (T := filter (fun v => negb (memb v (query sc))) (query sc')).
  assert (PM : Permutation (query sc') (query sc ++ T)).
  { apply NoDup_Permutation; [exact ND'| |].
    - apply NoDup_app_intro; [exact ND|now apply NoDup_filter|]. intros v Hv H. apply filter_In in H. destruct H as [_ H]. rewrite (proj2 (memb_In v _) Hv) in H. discriminate.
    - intros v. rewrite in_app_iff. unfold T. rewrite filter_In. split; [|intros [H|H]; [now apply HI|apply H]]. intros Hv. destruct (memb v (query sc)) eqn:EM; [left; now apply memb_In|now right]. }
  rewrite (H_perm _ _ _ _ PM ND'). apply (H_mono _ _ (okv kind m)).
  - apply P_pos.
  - now apply (P_sum kind ca ra m s D).
  - eapply Permutation_NoDup; [exact PM|exact ND'].
  - eapply Permutation_Forall; [exact PM|exact F'].
Qed.

(** mutual information: non-negative, at most either entropy, and zero exactly for
    independent blocks *)
Theorem C48_mutual_information : forall kind ca ra D m s x y i, measured kind ca ra D m s -> NoDup (query x) -> NoDup (query y) ->
  mutual_information kind ca ra m x y = Ok i ->
  0 <= i /\ (forall hx, entropy kind ca ra m x = Ok hx -> i <= hx) /\ (forall hy, entropy kind ca ra m y = Ok hy -> i <= hy) /\
  (i = 0 <-> forall w, reach (states kind m) (query x ++ query y) (fun _ => None) w ->
     marg ca ra m s w = marg ca ra m s (set_nan (query y) w) * marg ca ra m s (set_nan (query x) w)).
Proof.
  intros kind ca ra D m s x y i M Nx Ny E. destruct M as [B A N L RP AC AR KD].
  destruct (mi_H kind ca ra m s L x y i Nx Ny E) as (-> & ND & F).
  pose proof (P_sum kind ca ra m s D B A N L RP KD) as PS. pose proof (P_one ca ra m s B A L RP AC AR) as P1. pose proof (P_pos ca ra m s) as P0.
  assert (HN : H (states kind m) (marg ca ra m s) [] = 0) by (unfold H; cbn [gsum]; rewrite P1, ln_1; ring).
  pose proof (cmi_nonneg _ _ (okv kind m) P0 PS P1 (query x) (query y) [] ND F) as C1.
  pose proof (cmi_zero _ _ (okv kind m) P0 PS P1 (query x) (query y) [] ND F) as C2. cbn [app] in C1, C2. rewrite HN in C1, C2.
  assert (PC : Permutation (query x ++ query y) (query y ++ query x)) by apply Permutation_app_comm.
  split; [lra|]. split; [|split].
  - intros hx Ex. destruct (entropy_H kind ca ra m s L x hx Nx Ex) as (-> & _). rewrite (H_perm _ _ _ _ PC ND).
    pose proof (H_mono _ _ (okv kind m) P0 PS (query y) (query x) (Permutation_NoDup PC ND) (Permutation_Forall PC F)). lra.
  - intros hy Ey. destruct (entropy_H kind ca ra m s L y hy Ny Ey) as (-> & _).
    pose proof (H_mono _ _ (okv kind m) P0 PS (query x) (query y) ND F). lra.
  - assert (Z : forall w, reach (states kind m) (query x ++ query y) (fun _ => None) w -> gz (marg ca ra m s) (query x) (query y) w = 1).
    { intros w Hw. unfold gz. rewrite (set_nan_reach (states kind m) (query x ++ query y) _ w Hw), set_nan_id; [exact P1|reflexivity]. }
    split.
    + intros I w Hw. assert (C3 : forall w, reach (states kind m) (query x ++ query y) (fun _ => None) w -> marg ca ra m s w * gz (marg ca ra m s) (query x) (query y) w = gzx (marg ca ra m s) (query y) w * gzy (marg ca ra m s) (query x) w) by (apply C2; lra).
      specialize (C3 w Hw). rewrite (Z w Hw) in C3. unfold gzx, gzy in C3. lra.
    + intros I. enough (H (states kind m) (marg ca ra m s) (query x) + H (states kind m) (marg ca ra m s) (query y) - 0 - H (states kind m) (marg ca ra m s) (query x ++ query y) = 0) by lra.
      apply C2. intros w Hw. rewrite (Z w Hw). unfold gzx, gzy. rewrite <- (I w Hw). ring.
Qed.
Theorem C48_mutual_information_symmetric : forall kind ca ra D m s x y i, measured kind ca ra D m s -> NoDup (query x) -> NoDup (query y) ->
  mutual_information kind ca ra m x y = Ok i -> mutual_information kind ca ra m y x = Ok i.
Proof.
  intros kind ca ra D m s x y i M Nx Ny E. destruct M as [B A N L RP AC AR KD].
  destruct (mi_H kind ca ra m s L x y i Nx Ny E) as (Ei & ND & F).
  assert (PC : Permutation (query x ++ query y) (query y ++ query x)) by apply Permutation_app_comm.
  revert E. unfold mutual_information. destruct (disjb (query x) (query y)) eqn:ED; [|discriminate]. cbn [negb].
  assert (disjb (query y) (query x) = true) as -> by (apply disjb_spec; intros v H1 H2; apply (proj1 (disjb_spec _ _) ED v H2 H1)). cbn [negb].
  destruct (entropy kind ca ra m x) as [hx|] eqn:E1; [|discriminate]. cbn [bind]. destruct (entropy kind ca ra m y) as [hy|] eqn:E2; [|discriminate]. cbn [bind].
  destruct (scope_init_nat (query x ++ query y) []) as [xy|] eqn:E3; [|discriminate]. cbn [bind]. destruct (entropy kind ca ra m xy) as [hxy|] eqn:E4; [|discriminate]. cbn [bind].
  intros _. apply scope_init_nat_ok in E3. destruct E3 as [-> V].
  assert (E5 : scope_init_nat (query y ++ query x) [] = Ok (mkScope (query y ++ query x) [])).
  { apply scope_init_nat_ok. split; [reflexivity|]. split; [exact (Permutation_NoDup PC ND)|]. split; [constructor|]. split; [intros v _ []|reflexivity]. }
  rewrite E5. cbn [bind].
  assert (E6 : exists h, entropy kind ca ra m (mkScope (query y ++ query x) []) = Ok h).
  { apply C48_entropy_defined. assert (G : exists h, entropy kind ca ra m (mkScope (query x ++ query y) []) = Ok h) by eauto. apply C48_entropy_defined in G. destruct G as (G0 & G1 & G2 & G3). cbn [query] in *.
    split; [intros Z; rewrite Z in PC; apply Permutation_sym, Permutation_nil in PC; contradiction|].
    split; [intros v Hv; apply G1; eapply Permutation_in; [apply Permutation_sym; exact PC|exact Hv]|]. split; [|exact G3].
    intros v [Hv|Hv]; apply G2; [left; eapply Permutation_in; [apply Permutation_sym; exact PC|exact Hv]|now right]. }
  destruct E6 as (h & E6). rewrite E6. cbn [bind]. f_equal.
  destruct (entropy_H kind ca ra m s L x hx Nx E1) as (-> & _). destruct (entropy_H kind ca ra m s L y hy Ny E2) as (-> & _).
  destruct (entropy_H kind ca ra m s L (mkScope (query y ++ query x) []) h (Permutation_NoDup PC ND) E6) as (-> & _). cbn [query]. rewrite <- (H_perm _ _ _ _ PC ND), Ei. ring.
Qed.

(** conditional mutual information: non-negative, zero exactly for conditionally
    independent blocks *)
Theorem C48_conditional_mutual_information : forall kind ca ra D m s x y z i, measured kind ca ra D m s ->
  conditional_mutual_information kind ca ra m x y z = Ok i ->
  0 <= i /\
  (i = 0 <-> forall w, reach (states kind m) (query z ++ query x ++ query y) (fun _ => None) w ->
     marg ca ra m s w * marg ca ra m s (set_nan (query x ++ query y) w) = marg ca ra m s (set_nan (query y) w) * marg ca ra m s (set_nan (query x) w)).
Proof.
  intros kind ca ra D m s x y z i M E. destruct M as [B A N L RP AC AR KD].
  destruct (cmi_H kind ca ra m s L x y z i E) as (-> & ND & F).
  pose proof (P_sum kind ca ra m s D B A N L RP KD) as PS. pose proof (P_one ca ra m s B A L RP AC AR) as P1. pose proof (P_pos ca ra m s) as P0.
  assert (PC : Permutation (query x ++ query y ++ query z) (query z ++ query x ++ query y)) by (rewrite app_assoc; apply Permutation_app_comm).
  pose proof (Permutation_NoDup PC ND) as ND'. pose proof (Permutation_Forall PC F) as F'.
  destruct (parts (okv kind m) (query x) (query y) (query z) ND' F') as (NZ & NX & NY & NXY & NZX & NZY & _).
  rewrite (H_perm _ _ _ _ PC ND).
  rewrite (H_perm _ _ (query x ++ query z) (query z ++ query x) (Permutation_app_comm _ _) (Permutation_NoDup (Permutation_app_comm _ _) NZX)).
  rewrite (H_perm _ _ (query y ++ query z) (query z ++ query y) (Permutation_app_comm _ _) (Permutation_NoDup (Permutation_app_comm _ _) NZY)).
  split; [exact (cmi_nonneg _ _ (okv kind m) P0 PS P1 (query x) (query y) (query z) ND' F')|]. exact (cmi_zero _ _ (okv kind m) P0 PS P1 (query x) (query y) (query z) ND' F').
Qed.

(** the Monte-Carlo estimators are unbiased for rows from the distribution sample()
    draws from (SampleSpec.joint), when the aggregation reads channel 0 and repetition 0 *)
Theorem C146_monte_carlo_unbiased : forall kind ca ra D m s n, measured kind ca ra D m s -> reads_first ca (channels s) -> reads_first ra (repetitions s) ->
  (forall v, vars m v -> exists k, discrete kind m v k) -> (1 <= n)%nat ->
  (forall q h, NoDup q -> entropy kind ca ra m (mkScope q []) = Ok h ->
     expect (law (states kind m) (query (scope_of m)) (joint m)) n (fun rows => value (mc_entropy ca ra m s q rows)) = h) /\
  (forall x y i, NoDup (query x) -> NoDup (query y) -> mutual_information kind ca ra m x y = Ok i ->
     expect (law (states kind m) (query (scope_of m)) (joint m)) n (fun rows => value (mc_mutual_information ca ra m s (query x) (query y) rows)) = i).
Proof.
  intros kind ca ra D m s n M FC FR DV Hn. destruct M as [B A N L RP AC AR KD].
  assert (J : joint m = marg ca ra m s) by (apply functional_extensionality; intros x; symmetry; now apply marg_joint). rewrite J.
  assert (SUB : forall q, Forall (okv kind m) q -> incl q (query (scope_of m))).
  { intros q F v Hv. rewrite Forall_forall in F. destruct (F v Hv) as (k & _ & (l & H1 & H2) & _). eapply leaf_in_scope; eauto. now apply built_wf. }
  split.
  - intros q h ND E. destruct (entropy_H kind ca ra m s L (mkScope q []) h ND E) as (-> & F & _). cbn [query] in *. apply (mc_entropy_mean kind ca ra m s D); auto.
  - intros x y i Nx Ny E. destruct (mi_H kind ca ra m s L x y i Nx Ny E) as (-> & ND & F). apply (mc_mi_mean kind ca ra m s D); auto.
Qed.

(** conditional_probability, any aggregation: Bayes' rule, values in [0,1] that sum
    to one over the target's states; NaN only for evidence of probability zero *)
Theorem C147_conditional_probability : forall kind ca ra D m s y k e,
  built m -> aligned m -> leaves_norm D m -> ll_shape m = Ok s -> (0 < repetitions s)%nat ->
  (forall l k v, In l (leaves_of m) -> kind l = Some k -> In v (query (l_scope l)) -> D v = DFin (map INR (seq 0 k))) ->
  discrete kind m y k ->
  (forall a, conditional_probability ca ra m s y (INR a) e = None <-> marg ca ra m s (upd e y None) = 0) /\
  (forall a p, (a < k)%nat -> conditional_probability ca ra m s y (INR a) e = Some p ->
     0 <= p <= 1 /\ p * marg ca ra m s (upd e y None) = marg ca ra m s (upd e y (Some (INR a)))) /\
  (marg ca ra m s (upd e y None) <> 0 -> bsum k (fun a => value (conditional_probability ca ra m s y (INR a) e)) = 1) /\
  (forall yv o, conditional_probability ca ra m s y yv (upd e y o) = conditional_probability ca ra m s y yv e).
Proof.
  intros kind ca ra D m s y k e B A N L RP KD DY. pose proof (discrete_states kind m y k DY) as EK. assert (OY : okv kind m y) by now exists k. rewrite <- EK.
  split; [intros a; apply cp_none|]. split.
  - intros a p Ha H. split; [now apply (cp_range kind ca ra m s D B A N L RP KD y a e p OY Ha)|]. apply cp_some in H. destruct H as [H ->]. field. lra.
  - split; [|intros; apply cp_ignores]. intros NZ. apply (cp_total kind ca ra m s D B A N L RP KD y e OY). pose proof (pr_nonneg (reduce_ll ca ra s (loglik m (upd e y None)))) as G. fold (marg ca ra m s (upd e y None)) in G. lra.
Qed.

(** weight of evidence of one row: antisymmetric, zero for equal evidence, positive
    only if the full evidence makes the target more likely, bounded by the clamp *)
Theorem C148_weight_of_evidence : forall ca ra m s n k eps y yv full reduced w, (1 <= n)%nat -> 0 < eps < 1 / 2 ->
  woe_row ca ra m s n k eps y yv full reduced = Some w ->
  woe_row ca ra m s n k eps y yv reduced full = Some (- w) /\
  woe_row ca ra m s n k eps y yv full full = Some 0 /\
  Rabs w <= 2 * ln ((1 - eps) / eps) /\
  (forall p q, conditional_probability ca ra m s y yv full = Some p -> conditional_probability ca ra m s y yv reduced = Some q ->
     (q <= p -> 0 <= w) /\ (0 < w -> q < p) /\ (p = q -> w = 0)) /\
  (forall full' w', woe_row ca ra m s n k eps y yv reduced full' = Some w' -> woe_row ca ra m s n k eps y yv full full' = Some (w + w')).
Proof.
  intros ca ra m s n k eps y yv full reduced w Hn He H. apply woe_score in H. destruct H as (p & q & Hp & Hq & ->).
  assert (LE : logit eps = - ln ((1 - eps) / eps)).
  { unfold logit. replace (eps / (1 - eps)) with (/ ((1 - eps) / eps)) by (field; lra). apply ln_Rinv. apply Rdiv_lt_0_compat; lra. }
  pose proof (score_bound n k eps p He). pose proof (score_bound n k eps q He).
  split; [apply woe_score; exists q, p; repeat split; auto; ring|]. split; [apply woe_score; exists p, p; repeat split; auto; ring|].
  split; [apply Rabs_le; lra|]. split.
  - intros p' q' Hp' Hq'. rewrite Hp in Hp'. rewrite Hq in Hq'. injection Hp' as <-. injection Hq' as <-. split; [|split].
    + intros HL. pose proof (score_le n k eps q p Hn He HL). lra.
    + intros HW. apply Rnot_le_lt. intros HL. pose proof (score_le n k eps p q Hn He HL). lra.
    + intros ->. ring.
  - intros full' w' H'. apply woe_score in H'. destruct H' as (q' & r & Hq' & Hr & ->). rewrite Hq in Hq'. injection Hq' as <-. apply woe_score. exists p, r. repeat split; auto. ring.
Qed.
(** the batch function is the row function on equally long inputs *)
Theorem C148_batch : forall kind ca ra m n k eps y yv full reduced out,
  weight_of_evidence kind ca ra m n k eps y yv full reduced = Ok out ->
  length full = length reduced /\ (1 <= n)%nat /\ length out = length full /\
  exists kk s, ll_shape m = Ok s /\ (k = Some kk \/ k = None /\ discrete kind m y kk) /\
  forall i d, (i < length full)%nat -> nth i out None = woe_row ca ra m s n kk eps y yv (nth i full d) (nth i reduced d).
Proof.
  intros kind ca ra m n k eps y yv full reduced out. unfold weight_of_evidence. destruct (Nat.eqb_spec (length full) (length reduced)) as [EL|]; [|discriminate]. cbn [negb].
  destruct (Nat.ltb_spec n 1) as [|Hn]; [discriminate|]. destruct (card_y kind m y k) as [kk|] eqn:EK; [|discriminate]. cbn [bind]. destruct (ll_shape m) as [s|] eqn:ES; [|discriminate]. cbn [bind].
  intros E. injection E as <-. split; [exact EL|]. split; [exact Hn|]. split; [rewrite map_length, combine_length; lia|]. exists kk, s. split; [reflexivity|]. split.
  - destruct k as [k'|]; cbn in EK; [left; congruence|]. right. split; [reflexivity|]. destruct (infer_domains kind m [y]) as [K|] eqn:EI; [|discriminate]. cbn in EK. injection EK as <-.
    rewrite (infer_is kind m [y] K EI). apply (infer_ok kind m [y] K EI). now left.
  - intros i d Hi. rewrite nth_indep with (d' := (fun p => woe_row ca ra m s n kk eps y yv (fst p) (snd p)) (d, d)) by (rewrite map_length, combine_length; lia).
    rewrite (map_nth (fun p => woe_row ca ra m s n kk eps y yv (fst p) (snd p))). rewrite combine_nth by exact EL. reflexivity.
Qed.

(** leave-one-out: the entry of a present feature is the weight of evidence of the row
    against the row without it; the target's column and unobserved columns are NaN *)
Theorem C149_leave_one_out : forall kind ca ra m n k eps y yv ncols rows out,
  leave_one_out kind ca ra m n k eps y yv ncols rows = Ok out ->
  (forall i j, (i < length rows)%nat -> (j < ncols)%nat -> j <> y -> nth i rows (fun _ => None) j <> None ->
     exists kk s, ll_shape m = Ok s /\ (k = Some kk \/ k = None /\ discrete kind m y kk) /\
     out i j = woe_row ca ra m s n kk eps y yv (nth i rows (fun _ => None)) (upd (nth i rows (fun _ => None)) j None)) /\
  (forall i, out i y = None) /\
  (forall j, (forall x, In x rows -> x j = None) -> forall i, out i j = None).
Proof.
  intros kind ca ra m n k eps y yv ncols rows out. unfold leave_one_out.
  set (sc := fun j => (negb (Nat.eqb j y) && existsb (fun x : row => match x j with Some _ => true | None => false end) rows)%bool).
  set (o := fun i j => if Nat.eqb j y then None else nth i rows (fun _ => None) j).
  assert (SC : forall i j, (i < length rows)%nat -> j <> y -> nth i rows (fun _ => None) j <> None -> sc j = true).
  { intros i j Hi Hj HN. unfold sc. destruct (Nat.eqb_spec j y); [contradiction|]. cbn. apply existsb_exists. exists (nth i rows (fun _ => None)). split; [now apply nth_In|]. destruct (nth i rows _ j); [reflexivity|congruence]. }
  assert (UN : forall j, (forall x, In x rows -> x j = None) -> sc j = false /\ forall i, o i j = None).
  { intros j Hx. split.
    - unfold sc. apply andb_false_iff. right. apply not_true_iff_false. intros E. apply existsb_exists in E. destruct E as (x & Ix & E). rewrite (Hx x Ix) in E. discriminate.
    - intros i. unfold o. destruct (Nat.eqb j y); [reflexivity|]. destruct (Nat.lt_ge_cases i (length rows)) as [Hi|Hi]; [apply Hx; now apply nth_In|now rewrite nth_overflow by exact Hi]. }
  assert (SY : sc y = false) by (unfold sc; now rewrite Nat.eqb_refl).
  destruct (existsb sc (seq 0 ncols)) eqn:EX; cbn [negb].
  - destruct (Nat.ltb n 1); [discriminate|]. destruct (card_y kind m y k) as [kk|] eqn:EK; [|discriminate]. cbn [bind]. destruct (ll_shape m) as [s|] eqn:ES; [|discriminate]. cbn [bind].
    intros E. injection E as <-. split; [|split].
    + intros i j Hi Hjn Hj HN. exists kk, s. split; [reflexivity|]. split.
      { destruct k as [k'|]; cbn in EK; [left; congruence|]. right. split; [reflexivity|]. destruct (infer_domains kind m [y]) as [K|] eqn:EI; [|discriminate]. cbn in EK. injection EK as <-.
        rewrite (infer_is kind m [y] K EI). apply (infer_ok kind m [y] K EI). now left. }
      pose proof (SC i j Hi Hj HN) as SE. unfold sc in SE. rewrite SE. cbn zeta. set (b := nth i (map (fun x : row => upd x y (Some yv)) rows) (fun _ => None)).
      assert (EB : b = upd (nth i rows (fun _ => None)) y (Some yv)).
      { unfold b. rewrite nth_indep with (d' := (fun x : row => upd x y (Some yv)) (fun _ => None)) by now rewrite map_length. apply (map_nth (fun x : row => upd x y (Some yv))). }
      rewrite EB. unfold woe_row. rewrite (upd_comm _ y j (Some yv) None) by congruence. now rewrite !cp_ignores.
    + intros i. unfold sc in SY. rewrite SY. unfold o. now rewrite Nat.eqb_refl.
    + intros j Hx i. destruct (UN j Hx) as [U1 U2]. unfold sc in U1. rewrite U1. apply U2.
  - intros E. injection E as <-. split; [|split].
    + intros i j Hi Hjn Hj HN. exfalso. enough (existsb sc (seq 0 ncols) = true) by congruence. apply existsb_exists. exists j. split; [apply in_seq; lia|now apply (SC i j)].
    + intros i. unfold o. now rewrite Nat.eqb_refl.
    + intros j Hx i. apply (UN j Hx).
Qed.

(** ** refutations *)
(** exact entropy raises on every subset unless the model's variables are 0..d-1 *)
Theorem C150_contiguous_refuted : forall m v, vars m v -> (length (query (scope_of m)) <= v)%nat ->
  forall kind ca ra x y, entropy kind ca ra m x = Err /\ mutual_information kind ca ra m x y = Err.
Proof.
  intros m v Hv Hl kind ca ra x y. assert (E : forall sc, entropy kind ca ra m sc = Err).
  { intros sc. destruct (entropy kind ca ra m sc) as [h|] eqn:E; [|reflexivity]. exfalso. apply entropy_spec in E. destruct E as (_ & _ & C & _). specialize (C v (or_intror Hv)). lia. }
  split; [apply E|]. unfold mutual_information. rewrite E. now destruct (negb _).
Qed.

(** a missing entry is scored 0, not NaN, as soon as another row has the feature *)
Theorem C151_missing_entry_refuted : forall kind ca ra m n k eps y yv ncols rows out i i' j,
  leave_one_out kind ca ra m n k eps y yv ncols rows = Ok out ->
  (i < length rows)%nat -> (i' < length rows)%nat -> (j < ncols)%nat -> j <> y ->
  nth i rows (fun _ => None) j = None -> nth i' rows (fun _ => None) j <> None ->
  (forall s, ll_shape m = Ok s -> marg ca ra m s (upd (nth i rows (fun _ => None)) y None) <> 0) ->
  out i j = Some 0.
Proof.
  intros kind ca ra m n k eps y yv ncols rows out i i' j E Hi Hi' Hj Hy HN HP PO. revert E. unfold leave_one_out.
  set (sc := fun j => (negb (Nat.eqb j y) && existsb (fun x : row => match x j with Some _ => true | None => false end) rows)%bool).
  assert (SC : sc j = true).
  { unfold sc. destruct (Nat.eqb_spec j y); [contradiction|]. cbn. apply existsb_exists. exists (nth i' rows (fun _ => None)). split; [now apply nth_In|]. destruct (nth i' rows _ j); [reflexivity|congruence]. }
  assert (existsb sc (seq 0 ncols) = true) as -> by (apply existsb_exists; exists j; split; [apply in_seq; lia|exact SC]). cbn [negb].
  destruct (Nat.ltb n 1); [discriminate|]. destruct (card_y kind m y k) as [kk|] eqn:EK; [|discriminate]. cbn [bind]. destruct (ll_shape m) as [s|] eqn:ES; [|discriminate]. cbn [bind].
  intros E. injection E as <-. unfold sc in SC. rewrite SC. cbn zeta. set (b := nth i (map (fun x : row => upd x y (Some yv)) rows) (fun _ => None)).
  assert (EB : b = upd (nth i rows (fun _ => None)) y (Some yv)).
  { unfold b. rewrite nth_indep with (d' := (fun x : row => upd x y (Some yv)) (fun _ => None)) by now rewrite map_length. apply (map_nth (fun x : row => upd x y (Some yv))). }
  assert (EJ : upd b j None = b).
  { apply functional_extensionality. intros v. unfold upd at 1. destruct (Nat.eqb_spec v j) as [->|]; [|reflexivity]. rewrite EB, upd_other by exact Hy. now rewrite HN. }
  rewrite EJ, EB. unfold woe_row. rewrite !cp_ignores. destruct (conditional_probability ca ra m s y yv _) as [p|] eqn:EC; [f_equal; ring|]. exfalso. apply cp_none in EC. now apply (PO s eq_refl).
Qed.

(** two-channel Bernoulli leaf *)
Definition two (p0 p1 : R) : module := MLeaf (bern [0]%nat 2 1 (fun _ c _ => if Nat.eqb c 0 then p0 else p1)).
Definition twos : shape := mkShape 1 2 1.
Definition kind2 (_ : leaf) : option nat := Some 2%nat.
Lemma two_built p0 p1 : built (two p0 p1).
Proof. apply b_leaf, bern_ok; try lia; [discriminate|]. repeat constructor; cbn; intuition lia. Qed.
Lemma two_discrete p0 p1 : discrete kind2 (two p0 p1) 0 2.
Proof. split; [lia|]. split; [|reflexivity]. eexists. split; [now left|now left]. Qed.
Lemma two_measured p0 p1 : 0 <= p0 <= 1 -> 0 <= p1 <= 1 -> measured kind2 LogMeanExp LogMeanExp (fun _ => bits) (two p0 p1) twos.
Proof.
  intros H0 H1. split; try reflexivity.
  - apply two_built.
  - constructor; [|constructor]. apply bern_norm. intros f c r. destruct (Nat.eqb c 0); assumption.
  - cbn. lia.
  - right. discriminate.
  - right. discriminate.
  - intros l k v _ E _. injection E as <-. reflexivity.
Qed.
Lemma two_value p0 p1 : 0 <= p0 <= 1 -> 0 <= p1 <= 1 ->
  marg LogMeanExp LogMeanExp (two p0 p1) twos (upd (fun _ => None) 0 (Some 1)) = (p0 + p1) / 2 /\
  marg LogMeanExp LogMeanExp (two p0 p1) twos (upd (fun _ => None) 0 (Some 0)) = (2 - p0 - p1) / 2 /\
  joint (two p0 p1) (upd (fun _ => None) 0 (Some 1)) = p0 /\ joint (two p0 p1) (upd (fun _ => None) 0 (Some 0)) = 1 - p0.
Proof.
  intros H0 H1. unfold marg, reduce_ll, reduce_over. cbn [channels repetitions features twos Nat.eqb]. rewrite !pr_ladd, !pr_lse. cbn [bsum]. rewrite !pr_ladds. cbn [bprod pr].
  unfold joint, prob, loglik, two. cbn [evalm leaf_score l_lp bern out_shape features l_scope query length bprod Nat.eqb].
  unfold leaf_score. cbn [l_lp bern l_scope query nth Nat.eqb]. rewrite !upd_same. rewrite !pr_bern_1, !pr_bern_0 by lra.
  rewrite exp_Ropp, exp_ln by (cbn; lra). replace (INR 2) with 2 by (cbn; lra). repeat split; field.
Qed.
Lemma two_H p0 p1 : 0 <= p0 <= 1 -> 0 <= p1 <= 1 -> H (states kind2 (two p0 p1)) (marg LogMeanExp LogMeanExp (two p0 p1) twos) [0%nat] =
  - ((p0 + p1) / 2 * ln ((p0 + p1) / 2) + (2 - p0 - p1) / 2 * ln ((2 - p0 - p1) / 2)).
Proof.
  intros H0 H1. unfold H. change (states kind2 (two p0 p1)) with (fun _ : nat => if true then 2%nat else 0%nat) || idtac.
  assert (E : states kind2 (two p0 p1) 0%nat = 2%nat) by (apply discrete_states, two_discrete).
  cbn [gsum]. rewrite E. cbn [bsum]. change (INR 0) with 0. change (INR 1) with 1. destruct (two_value p0 p1 H0 H1) as (-> & -> & _). ring.
Qed.

(** with the default aggregation the Monte-Carlo entropy of a circuit with several
    output channels is biased: rows come from channel 0, scores from the average *)
Theorem C152_monte_carlo_refuted : forall n, (1 <= n)%nat ->
  exists D m s h, measured kind2 LogMeanExp LogMeanExp D m s /\ (forall v, vars m v -> exists k, discrete kind2 m v k) /\
  entropy kind2 LogMeanExp LogMeanExp m (scope_of m) = Ok h /\
  expect (law (states kind2 m) (query (scope_of m)) (joint m)) n (fun rows => value (mc_entropy LogMeanExp LogMeanExp m s (query (scope_of m)) rows)) <> h.
Proof.
  intros n Hn. set (m := two (1/2) (1/4)). assert (M : measured kind2 LogMeanExp LogMeanExp (fun _ => bits) m twos) by (apply two_measured; lra).
  assert (DV : forall v, vars m v -> exists k, discrete kind2 m v k) by (intros v [<-|[]]; exists 2%nat; apply two_discrete).
  assert (EE : exists h, entropy kind2 LogMeanExp LogMeanExp m (scope_of m) = Ok h).
  { apply C48_entropy_defined. split; [discriminate|]. split; [exact DV|]. split; [intros v [[<-|[]]|[<-|[]]]; cbn; lia|]. exists twos. reflexivity. }
  destruct EE as (h & EE). exists (fun _ => bits), m, twos, h. do 3 (split; [assumption|]).
  destruct (entropy_H kind2 LogMeanExp LogMeanExp m twos eq_refl (scope_of m) h ltac:(repeat constructor; cbn; tauto) EE) as (-> & _).
  change (query (scope_of m)) with [0%nat]. unfold m at 3 4. rewrite two_H by lra. fold m.
  destruct (two_value (1/2) (1/4)) as (V1 & V0 & J1 & J0); try lra. fold m in V1, V0, J1, J0.
  assert (EK : states kind2 m 0%nat = 2%nat) by (apply discrete_states, two_discrete).
  assert (JP : forall x, 0 <= joint m x) by (intros x; unfold joint; apply bprod_nonneg; intros; apply pr_nonneg).
  set (f := fun w : row => ln (marg LogMeanExp LogMeanExp m twos (upd (fun _ => None) 0 (w 0%nat)))).
  assert (RC : forall w, reach (states kind2 m) [0%nat] (fun _ => None) w -> w = upd (fun _ => None) 0 (Some 0) \/ w = upd (fun _ => None) 0 (Some 1)).
  { intros w Hw. inversion Hw as [|? ? ? ? a Ha Hr]; subst. inversion Hr; subst. rewrite EK in Ha. destruct a as [|[|a]]; [now left|now right|lia]. }
  assert (GT : gsum (states kind2 m) [0%nat] (joint m) (fun _ => None) = 1).
  { cbn [gsum]. rewrite EK. cbn [bsum]. change (INR 0) with 0. change (INR 1) with 1. rewrite J0, J1. lra. }
  rewrite (expect_ext _ _ _ JP n _ (fun ws => (-1) * (lsumR (map f ws) / INR n))).
  - rewrite expect_scal by exact JP. rewrite (expect_mean _ _ _ JP GT n f Hn). unfold law. cbn [gsum]. rewrite EK. cbn [bsum]. change (INR 0) with 0. change (INR 1) with 1. rewrite J0, J1. unfold f. rewrite !upd_same, V0, V1.
    assert (ln ((1 / 2 + 1 / 4) / 2) < ln ((2 - 1 / 2 - 1 / 4) / 2)) by (apply ln_increasing; lra). lra.
  - intros ws Hl Hf. unfold mc_entropy. rewrite (omean_some _ f ws); [cbn [value]; rewrite Hl; ring|]. eapply Forall_impl; [|exact Hf]. intros w [Hw _].
    assert (EW : forall a, (fun v => if memb v [0%nat] then upd (fun _ => None) 0 (Some a) v else None) = upd (fun _ => None) 0 (Some a)).
    { intros a. apply functional_extensionality. intros v. cbn. unfold upd. destruct v; reflexivity. }
    assert (PP : forall a, 0 < marg LogMeanExp LogMeanExp m twos (upd (fun _ => None) 0 (Some a)) -> lreal (ll_for LogMeanExp LogMeanExp m twos [0%nat] (upd (fun _ => None) 0 (Some a))) = Some (f (upd (fun _ => None) 0 (Some a)))).
    { intros a. unfold f, ll_for, marg. rewrite EW, upd_same. destruct (reduce_ll _ _ _ _) as [|t]; cbn [pr lreal]; intros Hp; [lra|]. now rewrite ln_exp. }
    destruct (RC w Hw) as [-> | ->]; apply PP; [rewrite V0; lra|rewrite V1; lra].
Qed.

(** aggregation "logsumexp" does not give probabilities: the entropy can be negative *)
Theorem C153_logsumexp_refuted : exists D m s h, measured kind2 LogMeanExp LogMeanExp D m s /\
  entropy kind2 LogSumExp LogSumExp m (scope_of m) = Ok h /\ h < 0.
Proof.
  set (m := two (3/4) (3/4)). exists (fun _ => bits), m, twos.
  assert (EE : exists h, entropy kind2 LogSumExp LogSumExp m (scope_of m) = Ok h).
  { apply C48_entropy_defined. split; [discriminate|]. split; [intros v [<-|[]]; exists 2%nat; apply two_discrete|]. split; [intros v [[<-|[]]|[<-|[]]]; cbn; lia|]. exists twos. reflexivity. }
  destruct EE as (h & EE). exists h. split; [apply two_measured; lra|]. split; [exact EE|].
  destruct (entropy_H kind2 LogSumExp LogSumExp m twos eq_refl (scope_of m) h ltac:(repeat constructor; cbn; tauto) EE) as (-> & _).
  assert (EK : states kind2 m 0%nat = 2%nat) by (apply discrete_states, two_discrete).
  assert (V : marg LogSumExp LogSumExp m twos (upd (fun _ => None) 0 (Some 1)) = 3/2 /\ marg LogSumExp LogSumExp m twos (upd (fun _ => None) 0 (Some 0)) = 1/2).
  { unfold marg, reduce_ll, reduce_over. cbn [channels repetitions features twos Nat.eqb]. rewrite !pr_lse. cbn [bsum]. rewrite !pr_ladds. cbn [bprod pr].
    unfold loglik, m, two. cbn [evalm leaf_score l_lp bern l_scope query length Nat.eqb]. unfold leaf_score. cbn [l_lp bern l_scope query nth Nat.eqb]. rewrite !upd_same. rewrite !pr_bern_1, !pr_bern_0 by lra. lra. }
  destruct V as [V1 V0]. unfold H. change (query (scope_of m)) with [0%nat]. cbn [gsum]. rewrite EK. cbn [bsum]. change (INR 0) with 0. change (INR 1) with 1. rewrite V0, V1.
  assert (0 < 3 / 2 * ln (3 / 2) + 1 / 2 * ln (1 / 2)); [|lra].
  assert (L1 : ln (1/2) = - ln 2) by (rewrite <- ln_Rinv by lra; f_equal; lra).
  assert (L2 : ln 2 < 3 * ln (3/2)).
  { replace (3 * ln (3/2)) with (ln ((3/2) * ((3/2) * (3/2)))) by (rewrite !ln_mult by lra; ring). apply ln_increasing; lra. }
  lra.
Qed.

(** ** the hypotheses are met *)
(** two dependent variables: a mixture of two products *)
Definition depL : module := MLeaf (bern [0; 1]%nat 2 1 (fun _ c _ => if Nat.eqb c 0 then 1/4 else 3/4)).
Definition dep_w : wtensor := mkW 1 2 1 1 (fun _ _ _ _ => 1/2).
Definition depS : module := MSum (MProduct depL) 1 1 (fun f i o r => ln (wv dep_w f i o r)).
Lemma depS_measured ca ra : measured kind2 ca ra (fun _ => bits) depS (mkShape 1 1 1).
Proof.
  split; try reflexivity.
  - apply (b_sum_w (MProduct depL) 1 1 (W4 dep_w)).
    + apply (b_product [depL]); [|reflexivity]. constructor; [|constructor]. apply b_leaf, bern_ok; try lia; [discriminate|]. repeat constructor; cbn; intuition lia.
    + apply (mk_sum_w_intro (MProduct depL) dep_w); cbn; try lia; intros; lra.
  - constructor; [|constructor]. apply bern_norm. intros f c r. destruct (Nat.eqb c 0); lra.
  - cbn. lia.
  - now left.
  - now left.
  - intros l k v _ E _. injection E as <-. reflexivity.
Qed.
Lemma depS_discrete v : vars depS v -> discrete kind2 depS v 2.
Proof. intros Hv. split; [lia|]. split; [|reflexivity]. eexists. split; [now left|exact Hv]. Qed.
Lemma depS_value ca ra x : marg ca ra depS (mkShape 1 1 1) x = 1/2 * (pev (leaf_score x) depL 0 0 0 * pev (leaf_score x) depL 1 0 0) + 1/2 * (pev (leaf_score x) depL 0 1 0 * pev (leaf_score x) depL 1 1 0).
Proof.
  unfold marg, reduce_ll, reduce_over. cbn [channels repetitions features Nat.eqb]. rewrite pr_ladds. cbn [bprod]. change (loglik depS x 0 0 0) with (evalm (leaf_score x) depS 0 0 0). fold (pev (leaf_score x) depS 0 0 0).
  unfold depS. rewrite pev_sum by (cbn; lia). cbn [bsum out_shape channels depL l_ch bern]. rewrite !pev_product. cbn [bprod out_shape features depL l_scope bern query length].
  assert (SM : forall i, (i < 2)%nat -> softmax 2 (fun ci => ln (wv dep_w 0 ci 0 0)) i = 1/2).
  { intros i Hi. unfold softmax. cbn [bsum wv dep_w]. rewrite exp_ln by lra. lra. }
  cbn [wv dep_w] in SM |- *. unfold bidx. cbn [Nat.eqb]. change (ll_reps (MProduct depL)) with 1%nat. cbn [Nat.eqb]. rewrite ?SM by lia. lra.
Qed.

Example C48_meets : exists i, mutual_information kind2 LogMeanExp LogMeanExp depS (mkScope [0]%nat []) (mkScope [1]%nat []) = Ok i /\ 0 < i.
Proof.
  assert (EE : forall q, q <> [] -> incl q [0; 1]%nat -> exists h, entropy kind2 LogMeanExp LogMeanExp depS (mkScope q []) = Ok h).
  { intros q NE HI. apply C48_entropy_defined. split; [exact NE|]. split; [intros v Hv; exists 2%nat; now apply depS_discrete, HI|]. split; [|exists (mkShape 1 1 1); reflexivity].
    intros v [Hv|Hv]; [apply HI in Hv|]; destruct Hv as [<-|[<-|[]]]; cbn; lia. }
  destruct (EE [0%nat] ltac:(discriminate) ltac:(intros v [<-|[]]; cbn; tauto)) as (h0 & E0).
  destruct (EE [1%nat] ltac:(discriminate) ltac:(intros v [<-|[]]; cbn; tauto)) as (h1 & E1).
  destruct (EE [0; 1]%nat ltac:(discriminate) ltac:(apply incl_refl)) as (h2 & E2).
  assert (EI : mutual_information kind2 LogMeanExp LogMeanExp depS (mkScope [0]%nat []) (mkScope [1]%nat []) = Ok (h0 + h1 - h2)).
  { unfold mutual_information. cbn [query disjb]. rewrite E0, E1. change (scope_init_nat ([0] ++ [1])%nat []) with (Ok (mkScope [0; 1]%nat [])). cbn [bind]. rewrite E2. reflexivity. }
  exists (h0 + h1 - h2). split; [exact EI|].
  destruct (C48_mutual_information kind2 LogMeanExp LogMeanExp (fun _ => bits) depS (mkShape 1 1 1) (mkScope [0]%nat []) (mkScope [1]%nat []) (h0 + h1 - h2) (depS_measured _ _) ltac:(repeat constructor; cbn; tauto) ltac:(repeat constructor; cbn; tauto) EI) as (P & _ & _ & Z).
  destruct P as [P|P]; [exact P|]. exfalso. symmetry in P. apply Z with (w := upd (upd (fun _ => None) 0 (Some (INR 1))) 1 (Some (INR 1))) in P.
  - rewrite !depS_value in P. unfold pev, depL, evalm, leaf_score, set_nan, upd in P. cbn [l_lp bern l_scope query nth existsb Nat.eqb orb] in P. change (INR 1) with 1 in P. rewrite !pr_bern_1 in P by lra. cbn [pr] in P. rewrite exp_0 in P. lra.
  - assert (K2 : forall v, vars depS v -> states kind2 depS v = 2%nat) by (intros v Hv; now apply discrete_states, depS_discrete).
    cbn [query app]. apply (r_cons _ 0%nat [1%nat] _ _ 1%nat); [rewrite K2; [lia|cbn; tauto]|]. apply (r_cons _ 1%nat [] _ _ 1%nat); [rewrite K2; [lia|cbn; tauto]|]. constructor.
Qed.

Example C146_meets : forall n, (1 <= n)%nat -> exists h, entropy kind2 LogMeanExp LogMeanExp depS (mkScope [0; 1]%nat []) = Ok h /\
  expect (law (states kind2 depS) [0; 1]%nat (joint depS)) n (fun rows => value (mc_entropy LogMeanExp LogMeanExp depS (mkShape 1 1 1) [0; 1]%nat rows)) = h.
Proof.
  intros n Hn. assert (EE : exists h, entropy kind2 LogMeanExp LogMeanExp depS (mkScope [0; 1]%nat []) = Ok h).
  { apply C48_entropy_defined. split; [discriminate|]. split; [intros v Hv; exists 2%nat; now apply depS_discrete|]. split; [|exists (mkShape 1 1 1); reflexivity]. intros v [Hv|Hv]; destruct Hv as [<-|[<-|[]]]; cbn; lia. }
  destruct EE as (h & EE). exists h. split; [exact EE|].
  apply (proj1 (C146_monte_carlo_unbiased kind2 LogMeanExp LogMeanExp (fun _ => bits) depS (mkShape 1 1 1) n (depS_measured _ _) ltac:(now left) ltac:(now left) ltac:(intros v Hv; exists 2%nat; now apply depS_discrete) Hn) [0; 1]%nat h); [repeat constructor; cbn; intuition lia|exact EE].
Qed.

(** p(v1 = 1 | v0 = 1) = 5/8 *)
Example C147_meets : conditional_probability LogMeanExp LogMeanExp depS (mkShape 1 1 1) 1 1 (upd (fun _ => None) 0 (Some 1)) = Some (5/8).
Proof.
  apply cp_some. rewrite !depS_value. unfold pev, depL, evalm, leaf_score, upd. cbn [l_lp bern l_scope query nth Nat.eqb]. rewrite !pr_bern_1 by lra. cbn [pr]. rewrite exp_0. split; lra.
Qed.
(** two rows: the first misses feature 0, the second has it; target 1 *)
Example C149_meets : exists out,
  leave_one_out kind2 LogMeanExp LogMeanExp depS 10 None (1/1000) 1 1 2 [(fun _ => None); upd (fun _ => None) 0 (Some 1)] = Ok out /\
  out 0%nat 0%nat = Some 0 /\ (exists w, out 1%nat 0%nat = Some w /\ 0 < w) /\ out 0%nat 1%nat = None.
Proof.
  set (rows := [(fun _ => None); upd (fun _ => None) 0 (Some 1)] : list row).
  assert (EK : card_y kind2 depS 1 None = Ok 2%nat).
  { unfold card_y. rewrite (infer_total kind2 depS [1%nat]); [cbn [bind]; f_equal; apply discrete_states, depS_discrete; cbn; tauto|]. intros v [<-|[]]. exists 2%nat. apply depS_discrete. cbn. tauto. }
  assert (EL : exists out, leave_one_out kind2 LogMeanExp LogMeanExp depS 10 None (1/1000) 1 1 2 rows = Ok out).
  { unfold leave_one_out. rewrite EK. destruct (negb _); [eexists; reflexivity|]. change (Nat.ltb 10 1) with false. change (ll_shape depS) with (Ok (mkShape 1 1 1)). eexists. reflexivity. }
  destruct EL as (out & EL). exists out. split; [exact EL|]. split; [|split].
  - apply (C151_missing_entry_refuted kind2 LogMeanExp LogMeanExp depS 10 None (1/1000) 1 1 2 rows out 0 1 0 EL); try (cbn; lia); try reflexivity; [cbn; discriminate|].
    intros s Es. injection Es as <-. cbn [rows nth]. rewrite depS_value. unfold pev, depL, evalm, leaf_score, upd. cbn [l_lp bern l_scope query nth Nat.eqb]. cbn [pr]. rewrite exp_0. lra.
  - destruct (C149_leave_one_out _ _ _ _ _ _ _ _ _ _ _ _ EL) as (P & _ & _).
    destruct (P 1%nat 0%nat) as (kk & s & Es & [C|[_ Ek]] & ->); try (cbn; lia); [cbn; discriminate|discriminate|]. injection Es as <-.
    assert (kk = 2%nat) as -> by (rewrite <- (discrete_states _ _ _ _ Ek); apply discrete_states, depS_discrete; cbn; tauto).
    assert (C1 : conditional_probability LogMeanExp LogMeanExp depS (mkShape 1 1 1) 1 1 (nth 1 rows (fun _ => None)) = Some (5/8)) by apply C147_meets.
    assert (C2 : conditional_probability LogMeanExp LogMeanExp depS (mkShape 1 1 1) 1 1 (upd (nth 1 rows (fun _ => None)) 0 None) = Some (1/2)).
    { apply cp_some. rewrite !depS_value. unfold pev, depL, evalm, leaf_score, upd. cbn [l_lp bern l_scope query nth Nat.eqb rows]. rewrite !pr_bern_1 by lra. cbn [pr]. rewrite exp_0. split; lra. }
    eexists. split; [unfold woe_row; rewrite C1, C2; reflexivity|].
    assert (N10 : INR 10 = 10) by (cbn; lra). assert (N2 : INR 2 = 2) by (cbn; lra).
    unfold laplace, clamp, logit. rewrite N10, N2. rewrite !Rmax_left by lra. rewrite !Rmin_left by lra.
    assert (ln ((1 / 2 * 10 + 1) / (10 + 2) / (1 - (1 / 2 * 10 + 1) / (10 + 2))) < ln ((5 / 8 * 10 + 1) / (10 + 2) / (1 - (5 / 8 * 10 + 1) / (10 + 2)))); [|lra]. apply ln_increasing; lra.
  - apply (proj1 (proj2 (C149_leave_one_out _ _ _ _ _ _ _ _ _ _ _ _ EL))).
Qed.
Example C148_meets : exists w, woe_row LogMeanExp LogMeanExp depS (mkShape 1 1 1) 10 2 (1/1000) 1 1 (upd (fun _ => None) 0 (Some 1)) (upd (fun _ => None) 0 (Some 1)) = Some w.
Proof. unfold woe_row. rewrite C147_meets. eexists. reflexivity. Qed.
(** exS ranges over the variables 0 and 2 *)
Example C150_meets : vars exS 2 /\ (length (query (scope_of exS)) <= 2)%nat /\ built exS /\ forall v, vars exS v -> discrete kind2 exS v 2.
Proof.
  split; [right; now left|]. split; [cbn; lia|]. split; [apply exS_built|]. intros v Hv. split; [lia|]. split; [|reflexivity]. eexists. split; [now left|exact Hv].
Qed.

Print Assumptions C48_marginals.
Print Assumptions C48_entropy_defined.
Print Assumptions C48_entropy.
Print Assumptions C48_entropy_monotone.
Print Assumptions C48_mutual_information.
Print Assumptions C48_mutual_information_symmetric.
Print Assumptions C48_conditional_mutual_information.
Print Assumptions C146_monte_carlo_unbiased.
Print Assumptions C147_conditional_probability.
(** the value: the difference of the log-odds of the two conditional probabilities, each
    Laplace-corrected with [n] observations of a [k]-valued target and clipped *)
Theorem C148_value : forall ca ra m s n k eps y yv full reduced w, 0 < eps < 1 / 2 ->
  (woe_row ca ra m s n k eps y yv full reduced = Some w <->
   exists p q, conditional_probability ca ra m s y yv full = Some p /\ conditional_probability ca ra m s y yv reduced = Some q /\
     let smooth u := Rmin (Rmax ((u * INR n + 1) / (INR n + INR k)) eps) (1 - eps) in
     w = (ln (smooth p) - ln (1 - smooth p)) - (ln (smooth q) - ln (1 - smooth q))).
Proof.
  intros ca ra m s n k eps y yv full reduced w He. rewrite woe_score.
  assert (SC : forall u, score n k eps u = ln (Rmin (Rmax ((u * INR n + 1) / (INR n + INR k)) eps) (1 - eps)) - ln (1 - Rmin (Rmax ((u * INR n + 1) / (INR n + INR k)) eps) (1 - eps))).
  { intros u. pose proof (clamp_range eps (laplace n k u) He) as HC. unfold score, logit. unfold clamp, laplace in *. apply MeasureProofs.ln_div; lra. }
  split; intros (p & q & Hp & Hq & E); exists p, q; (split; [exact Hp|]); (split; [exact Hq|]); cbv zeta in *; rewrite !SC in *; exact E.
Qed.
Print Assumptions C148_value.
Print Assumptions C148_weight_of_evidence.
Print Assumptions C148_batch.
Print Assumptions C149_leave_one_out.
Print Assumptions C150_contiguous_refuted.
Print Assumptions C151_missing_entry_refuted.
Print Assumptions C152_monte_carlo_refuted.
Print Assumptions C153_logsumexp_refuted.
