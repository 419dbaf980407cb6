(** Prometheus: sampled edges and correlations. *)
From Coq Require Import List Arith Bool Reals Lia Lra Permutation.
From Verif Require Import Base ScopeModel CircuitModel LearnModel CnetModel CnetProofs PromModel PromSpec.
Import ListNotations.
Local Open Scope nat_scope.

Section Sampled.
Variables (w : nat -> nat -> R).
Definition pairof (i j : nat) : nat * nat := (Nat.min i j, Nat.max i j).
Definition put (acc : list edge) (p : nat * nat) : list edge :=
  if existsb (fun e => Nat.eqb (fst (ends e)) (fst p) && Nat.eqb (snd (ends e)) (snd p))%bool acc then acc else acc ++ [(p, w (fst p) (snd p))].
Lemma put_in acc p : existsb (fun e => Nat.eqb (fst (ends e)) (fst p) && Nat.eqb (snd (ends e)) (snd p))%bool acc = true <-> In p (map ends acc).
Proof.
  rewrite existsb_exists, in_map_iff. split; intros (e & H1 & H2).
  - apply andb_prop in H2. destruct H2 as [A B]. apply Nat.eqb_eq in A, B. exists e. split; [|exact H1]. destruct (ends e), p; cbn in *; congruence.
  - exists e. split; [exact H2|]. subst p. now rewrite !Nat.eqb_refl.
Qed.
Lemma put_fold ps acc : (forall e, In e acc -> snd e = w (fst (fst e)) (snd (fst e))) -> NoDup (map ends acc) ->
  let E := fold_left put ps acc in
  NoDup (map ends E) /\ (forall e, In e E -> snd e = w (fst (fst e)) (snd (fst e))) /\ (forall p, In p (map ends E) <-> In p (map ends acc) \/ In p ps).
Proof.
  cbn zeta. revert acc. induction ps as [|p ps IH]; intros acc HW ND; cbn [fold_left].
  - split; [exact ND|]. split; [exact HW|]. cbn. tauto.
  - destruct (existsb (fun e => Nat.eqb (fst (ends e)) (fst p) && Nat.eqb (snd (ends e)) (snd p))%bool acc) eqn:X; unfold put at 2 4 6; rewrite X.
    + destruct (IH acc HW ND) as (A & B & C). split; [exact A|]. split; [exact B|]. intros p'. rewrite C. apply put_in in X. cbn [In]. split; [tauto|]. intros [H|[<-|H]]; tauto.
    + assert (N : ~ In p (map ends acc)) by (intros K; apply put_in in K; congruence).
      destruct (IH (acc ++ [(p, w (fst p) (snd p))])) as (A & B & C).
      * intros e He. apply in_app_or in He. destruct He as [He|[<-|[]]]; [now apply HW|reflexivity].
      * rewrite map_app. change (map ends [(p, w (fst p) (snd p))]) with [p]. apply (Permutation_NoDup (l := p :: map ends acc)); [apply Permutation_cons_append|constructor; auto].
      * split; [exact A|]. split; [exact B|]. intros p'. rewrite C, map_app, in_app_iff. cbn. tauto.
Qed.
Lemma sampled_fold d k choice : 2 <= d -> 1 <= k ->
  sampled_edges d k choice w = fold_left put (flat_map (fun i => map (fun c => pairof i (chosen i c)) (choice i)) (seq 0 d)) [].
Proof.
  intros Hd Hk. unfold sampled_edges. destruct (Nat.leb_spec d 1); [lia|]. destruct (Nat.leb_spec k 0); [lia|]. cbn [orb].
  generalize (@nil edge). induction (seq 0 d) as [|i l IH]; intros acc; [reflexivity|]. cbn [fold_left flat_map]. rewrite fold_left_app, IH. f_equal.
  clear. revert acc. induction (choice i) as [|c cs IH]; intros acc; [reflexivity|]. cbn [fold_left map]. rewrite IH. reflexivity.
Qed.
Lemma sampled_edges_spec d k choice : 2 <= d -> 1 <= k -> (forall i c, i < d -> In c (choice i) -> c < d - 1) ->
  let E := sampled_edges d k choice w in
  edges_ok d E /\ NoDup (map fst E) /\
  (forall a b x, In ((a, b), x) E <-> a < b /\ b < d /\ x = w a b /\ (In b (map (chosen a) (choice a)) \/ In a (map (chosen b) (choice b)))) /\
  (forall i, i < d -> NoDup (choice i) -> length (choice i) <= length (filter (incident i) E)).
Proof.
  intros Hd Hk HC. cbn zeta. rewrite (sampled_fold d k choice Hd Hk).
  destruct (put_fold (flat_map (fun i => map (fun c => pairof i (chosen i c)) (choice i)) (seq 0 d)) [] ltac:(intros e []) ltac:(constructor)) as (ND & HW & HI).
  match type of ND with NoDup (map ends ?e) => set (E := e) in * end.
  assert (HP : forall a b, In (a, b) (map ends E) <-> exists i c, i < d /\ In c (choice i) /\ (a, b) = pairof i (chosen i c)).
  { intros a b. rewrite HI. cbn [map In]. rewrite in_flat_map. split.
    - intros [[]|(i & Hi & H)]. apply in_map_iff in H. destruct H as (c & <- & Hc). apply in_seq in Hi. exists i, c. repeat split; auto; lia.
    - intros (i & c & Hi & Hc & ->). right. exists i. split; [apply in_seq; lia|]. apply in_map_iff. eauto. }
  assert (NE : forall i c, i < d -> In c (choice i) -> chosen i c <> i /\ chosen i c < d).
  { intros i c Hi Hc. specialize (HC i c Hi Hc). unfold chosen. destruct (Nat.ltb_spec c i); lia. }
  assert (IFF : forall a b x, In ((a, b), x) E <-> a < b /\ b < d /\ x = w a b /\ (In b (map (chosen a) (choice a)) \/ In a (map (chosen b) (choice b)))).
  { intros a b x. split.
    - intros H. pose proof (HW _ H) as Ex. cbn in Ex. assert (In (a, b) (map ends E)) as K by (apply in_map_iff; exists ((a, b), x); auto).
      apply HP in K. destruct K as (i & c & Hi & Hc & Ep). destruct (NE i c Hi Hc) as [N1 N2]. unfold pairof in Ep. injection Ep as Ea Eb.
      split; [lia|]. split; [lia|]. split; [exact Ex|]. destruct (Nat.lt_ge_cases i (chosen i c)).
      + left. apply in_map_iff. exists c. rewrite Nat.min_l in Ea by lia. rewrite Nat.max_r in Eb by lia. subst a. auto.
      + right. apply in_map_iff. exists c. rewrite Nat.min_r in Ea by lia. rewrite Nat.max_l in Eb by lia. subst b. auto.
    - intros (H1 & H2 & -> & H). assert (In (a, b) (map ends E)) as K.
      { apply HP. destruct H as [H|H]; apply in_map_iff in H; destruct H as (c & Ec & Hc).
        - exists a, c. split; [lia|]. split; [exact Hc|]. unfold pairof. rewrite Ec. f_equal; lia.
        - exists b, c. split; [lia|]. split; [exact Hc|]. unfold pairof. rewrite Ec. f_equal; lia. }
      apply in_map_iff in K. destruct K as ([p x] & Ep & He). cbn in Ep. subst p. pose proof (HW _ He) as Ex. cbn in Ex. now subst x. }
  split; [intros a b x H; apply IFF in H; tauto|]. split; [exact ND|]. split; [exact IFF|].
  intros i Hi NDc. rewrite <- (map_length (fun c => (pairof i (chosen i c), w (fst (pairof i (chosen i c))) (snd (pairof i (chosen i c)))))).
  apply NoDup_incl_length.
  - assert (CI : forall c c', chosen i c = chosen i c' -> c = c') by (intros c c'; unfold chosen; destruct (Nat.ltb_spec c i), (Nat.ltb_spec c' i); lia).
    assert (HN : forall c, In c (choice i) -> chosen i c <> i) by (intros c Hc; now apply NE). clear -NDc CI HN.
    induction NDc as [|c cs Nc NDc IH]; cbn [map]; constructor; [|apply IH; intros; apply HN; now right].
    rewrite in_map_iff. intros (c' & Ec & Hc'). injection Ec as E1 E2 _. apply Nc. assert (chosen i c' = chosen i c); [|now rewrite <- (CI _ _ H)].
    pose proof (HN c ltac:(now left)). pose proof (HN c' ltac:(now right)). lia.
  - intros e He. apply in_map_iff in He. destruct He as (c & <- & Hc). destruct (NE i c Hi Hc) as [N1 N2]. apply filter_In. split.
    + unfold pairof. cbn [fst snd]. apply IFF. split; [lia|]. split; [lia|]. split; [reflexivity|]. destruct (Nat.lt_ge_cases i (chosen i c)).
      * left. rewrite Nat.min_l, Nat.max_r by lia. now apply in_map.
      * right. rewrite Nat.min_r, Nat.max_l by lia. now apply in_map.
    + unfold incident, pairof. cbn [fst snd]. destruct (Nat.eqb_spec (Nat.min i (chosen i c)) i), (Nat.eqb_spec (Nat.max i (chosen i c)) i); cbn; try reflexivity; lia.
Qed.
End Sampled.

Lemma default_samples_spec d : 2 <= d -> 1 <= default_samples d /\ default_samples d <= d - 1 /\ default_samples d = Nat.log2 d.
Proof.
  intros H. unfold default_samples. destruct (Nat.leb_spec d 1); [lia|].
  assert (1 <= Nat.log2 d) by (change 1 with (Nat.log2 2); now apply Nat.log2_le_mono). pose proof (Nat.log2_lt_lin d ltac:(lia)). lia.
Qed.

Local Open Scope R_scope.
Lemma dot_comm (l l' : list R) : lsumR (map (fun p => fst p * snd p) (combine l l')) = lsumR (map (fun p => fst p * snd p) (combine l' l)).
Proof. revert l'. induction l as [|a l IH]; intros [|b l']; cbn; try reflexivity. rewrite IH. lra. Qed.
Lemma corr_range d data i j : 0 <= affinity_corr d data i j <= 1.
Proof.
  unfold affinity_corr. destruct (Nat.eqb d 1); [lra|]. destruct (Nat.eqb i j); [lra|]. split; [apply Rabs_pos|].
  apply Rabs_le. split; [apply Rmax_l|]. apply Rmax_lub; [lra|apply Rmin_l].
Qed.
Lemma corr_sym d data i j : affinity_corr d data i j = affinity_corr d data j i.
Proof.
  unfold affinity_corr. destruct (Nat.eqb d 1); [reflexivity|]. rewrite (Nat.eqb_sym i j). destruct (Nat.eqb j i); [reflexivity|]. now rewrite dot_comm.
Qed.
Lemma corr_diag d data i : affinity_corr d data i i = 1.
Proof. unfold affinity_corr. rewrite Nat.eqb_refl. now destruct (Nat.eqb d 1). Qed.
Lemma corr_constant d data i j a : (2 <= d)%nat -> i <> j -> (forall x, In x data -> x i = a) -> affinity_corr d data i j = 0.
Proof.
  intros Hd Hij H. unfold affinity_corr. destruct (Nat.eqb_spec d 1); [lia|]. destruct (Nat.eqb_spec i j); [contradiction|].
  assert (Z : forall y, In y (scaled data i) -> y = 0).
  { intros y Hy. unfold scaled in Hy. apply in_map_iff in Hy. destruct Hy as (c & <- & Hc). unfold centred in Hc. apply in_map_iff in Hc. destruct Hc as (x & <- & Hx).
    assert (colmean data i = a) as ->; [|rewrite (H x Hx); unfold Rdiv; lra].
    unfold colmean. assert (lsumR (map (fun x => x i) data) = INR (length data) * a) as ->.
    { clear -H. induction data as [|y l IH]; [cbn; lra|]. cbn [map lsumR length]. rewrite IH by (intros; apply H; now right). rewrite (H y) by now left. rewrite S_INR. lra. }
    field. apply not_0_INR. destruct data; [destruct Hx|discriminate]. }
  assert (lsumR (map (fun p => fst p * snd p) (combine (scaled data i) (scaled data j))) = 0) as ->.
  { revert Z. generalize (scaled data j). induction (scaled data i) as [|y l IH]; intros [|z l'] Z; cbn; try reflexivity. rewrite IH by (intros; apply Z; now right). rewrite (Z y) by now left. lra. }
  unfold Rmin, Rmax. destruct (Rle_dec 1 0); [lra|]. destruct (Rle_dec (-1) 0); [|lra]. apply Rabs_R0.
Qed.
