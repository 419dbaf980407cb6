(** Factorize: log-likelihoods, routing, marginalisation. *)
From Coq Require Import List Arith Bool Reals Lia Lra Permutation.
From Verif Require Import Base ScopeModel ScopeProofs CircuitModel SampleModel SampleSpec SampleExp FactorModel FactorProofs.
Import ListNotations.
Local Open Scope R_scope.

Lemma esum_fin n f (x : nat -> R) : (forall i, (i < n)%nat -> f i = Some (Fin (x i))) -> esum n f = Some (Fin (bsum n x)).
Proof.
  induction n as [|n IH]; intros H; [reflexivity|]. cbn [esum bsum]. rewrite IH, H by (intros; try apply H; lia).
  cbn. reflexivity.
Qed.
Lemma esum_none n f i : (i < n)%nat -> f i = None -> esum n f = None.
Proof.
  induction n as [|n IH]; intros Hi H; [lia|]. cbn [esum]. destruct (Nat.eq_dec i n) as [-> |N].
  - rewrite H. now destruct (esum n f).
  - rewrite IH by (lia || assumption). reflexivity.
Qed.
Lemma lsumR_filter (f : nat -> R) b l : lsumR (map f (filter b l)) = lsumR (map (fun i => if b i then f i else 0) l).
Proof. induction l as [|a l IH]; cbn; [reflexivity|]. destruct (b a); cbn; rewrite IH; lra. Qed.

Section Good.
Variables (nf ch depth reps : nat) (sizes : list nat) (perms : nat -> list nat) (m : fact).
Hypothesis Hs : Permutation sizes (base_sizes nf (2 ^ depth)).
Hypothesis Hp : forall r, Permutation (perms r) (seq 0 nf).
Hypothesis Hm : mk_factorize nf nf ch depth reps sizes perms = Ok m.
Let G := (2 ^ depth)%nat.

Lemma m_fields : fc_nf m = nf /\ fc_in m = nf /\ fc_ch m = ch /\ fc_out m = G /\ fc_reps m = reps.
Proof. unfold fc_out, G. destruct (m_is nf nf ch depth reps sizes perms m Hm) as [-> _]. cbn. auto. Qed.

Lemma ll_fin ll (x : nat -> nat -> nat -> R) o c r : (forall i, (i < nf)%nat -> ll i c r = Fin (x i c r)) ->
  fact_ll m ll o c r = Ok (Some (Fin (lsumR (map (fun i => x i c r) (filter (fun i => fc_mat m r i o) (seq 0 nf)))))).
Proof.
  intros H. unfold fact_ll. destruct m_fields as (-> & -> & _). rewrite Nat.eqb_refl. do 2 f_equal.
  rewrite lsumR_filter, lsumR_seq. apply esum_fin. intros i Hi. rewrite (H i Hi). now destruct (fc_mat m r i o).
Qed.
Lemma ll_total (x : nat -> R) r :
  bsum G (fun o => lsumR (map x (filter (fun i => fc_mat m r i o) (seq 0 nf)))) = bsum nf x.
Proof.
  transitivity (bsum G (fun o => bsum nf (fun i => if fc_mat m r i o then x i else 0))).
  { apply bsum_ext. intros o _. now rewrite lsumR_filter, lsumR_seq. }
  rewrite bsum_swap. apply bsum_ext. intros i Hi.
  destruct (owner_exists _ _ _ _ _ _ _ _ Hs Hp Hm r i Hi) as (o & Ho & E).
  rewrite (bsum_single _ _ o Ho).
  - now rewrite E.
  - intros o' _ N. destruct (fc_mat m r i o') eqn:E'; [|reflexivity].
    exfalso. apply N. exact (owner_unique _ _ _ _ _ _ _ _ Hs Hp Hm r i o' o E' E).
Qed.
Lemma ll_nan ll o c r i : (i < nf)%nat -> ll i c r = NInf -> fc_mat m r i o = false -> fact_ll m ll o c r = Ok None.
Proof.
  intros Hi Hl Hz. unfold fact_ll. destruct m_fields as (-> & -> & _). rewrite Nat.eqb_refl. f_equal.
  apply (esum_none _ _ i Hi). now rewrite Hl, Hz.
Qed.

(** *** routing *)
Definition chan_at (t : ctx) (o : nat) : nat := if Nat.eqb (length (c_ci t)) 1 then hd 0%nat (c_ci t) else nth o (c_ci t) 0%nat.
Definition mask_at (t : ctx) (o : nat) : bool := if Nat.eqb (length (c_ci t)) 1 then hd false (c_mask t) else nth o (c_mask t) false.

Lemma bcast_at n t : length (c_ci t) = length (c_mask t) -> length (c_ci t) = 1%nat \/ length (c_ci t) = n ->
  exists t1, broadcast n t = Ok t1 /\ length (c_ci t1) = n /\ length (c_mask t1) = n /\ c_rep t1 = c_rep t /\
   forall o, (o < n)%nat -> nth o (c_ci t1) 0%nat = chan_at t o /\ nth o (c_mask t1) false = mask_at t o.
Proof.
  intros HL H. unfold broadcast, chan_at, mask_at. destruct t as [ci mk rp]. cbn [c_ci c_mask c_rep] in *.
  destruct (Nat.eqb_spec (length ci) n) as [E|E].
  - eexists. split; [reflexivity|]. cbn [c_ci c_mask c_rep]. split; [exact E|]. split; [lia|]. split; [reflexivity|].
    intros o Ho. destruct (Nat.eqb_spec (length ci) 1) as [E1|E1]; [|tauto].
    assert (o = 0)%nat as -> by lia. destruct ci as [|? [|]], mk as [|? [|]]; cbn in *; try lia. tauto.
  - destruct H as [H|H]; [|contradiction]. rewrite H, Nat.eqb_refl.
    eexists. split; [reflexivity|]. cbn [c_ci c_mask c_rep]. rewrite !repeat_length. repeat (split; [reflexivity|]).
    intros o Ho. assert (K : forall A (a d : A) k i, (i < k)%nat -> nth i (repeat a k) d = a).
    { intros A a d k i Hi. apply (repeat_spec k). apply nth_In. now rewrite repeat_length. }
    now rewrite !K by exact Ho.
Qed.

Lemma validate_parts ws nch nr t : validate ws nch nr t = true ->
  length (c_ci t) = length (c_mask t) /\ In (length (c_ci t)) ws /\ active_below nch t = true /\ (c_rep t < nr)%nat.
Proof.
  unfold validate. rewrite !andb_true_iff. intros (((((A & B) & C) & D) & E) & F).
  apply Nat.eqb_eq in A. apply Nat.ltb_lt in F. apply existsb_exists in B. destruct B as (w & Hw & Ew). apply Nat.eqb_eq in Ew.
  split; [exact A|]. split; [now rewrite Ew|]. split; assumption.
Qed.

Lemma route_ok t : validate [1%nat; G] ch reps t = true ->
  exists t', fact_route m t = Ok t' /\ length (c_ci t') = nf /\ length (c_mask t') = nf /\ c_rep t' = c_rep t /\
    forall i o, fc_mat m (c_rep t) i o = true ->
      nth i (c_ci t') 0%nat = chan_at t o /\ nth i (c_mask t') false = mask_at t o.
Proof.
  intros V. unfold fact_route. destruct m_fields as (-> & _ & -> & -> & ->). rewrite V.
  apply validate_parts in V. destruct V as (V1 & V2 & _).
  destruct (bcast_at G t V1) as (t1 & E & L1 & L2 & ER & K); [cbn in V2; intuition|].
  rewrite E. cbn [bind]. eexists. split; [reflexivity|]. cbn [c_ci c_mask c_rep]. rewrite !map_length, seq_length.
  repeat (split; [reflexivity || exact ER|]). intros i o Hmat.
  destruct (mat_lt _ _ _ _ _ _ _ _ Hs Hp Hm _ _ _ Hmat) as [Hi Ho].
  assert (W : forall A (g : nat -> A) d, nth i (map g (seq 0 nf)) d = g i).
  { intros A g d. rewrite (nth_indep _ d (g 0%nat)) by (rewrite map_length, seq_length; exact Hi).
    rewrite map_nth, seq_nth by exact Hi. reflexivity. }
  rewrite !W, ER, (owner_spec _ _ _ _ _ _ _ _ Hs Hp Hm _ _ _ Hmat). apply K. exact Ho.
Qed.
(** the routed inputs carry exactly the probability of the chosen outputs *)
Lemma route_prob t t' ll (x : nat -> nat -> nat -> R) : (forall i c r, ll i c r = Fin (x i c r)) ->
  validate [1%nat; G] ch reps t = true -> fact_route m t = Ok t' ->
  forall out, (forall o, (o < G)%nat -> fact_ll m ll o (chan_at t o) (c_rep t) = Ok (Some (out o))) ->
  bprod nf (fun i => pr (ll i (nth i (c_ci t') 0%nat) (c_rep t))) = bprod G (fun o => pr (out o)).
Proof.
  intros Hl V E out Ho. destruct (route_ok t V) as (t2 & E2 & _ & _ & _ & K). rewrite E in E2. injection E2 as <-.
  set (r := c_rep t) in *.
  assert (A : forall n y, bprod n (fun i => exp (y i)) = exp (bsum n y)).
  { induction n as [|n IH]; intros y; cbn; [symmetry; apply exp_0|]. rewrite IH, exp_plus. ring. }
  rewrite (bprod_ext nf _ (fun i => exp (x i (nth i (c_ci t') 0%nat) r))) by (intros i _; now rewrite Hl).
  rewrite A.
  rewrite (bprod_ext G _ (fun o => exp (lsumR (map (fun i => x i (chan_at t o) r) (filter (fun i => fc_mat m r i o) (seq 0 nf)))))).
  2:{ intros o Hlt. pose proof (Ho o Hlt) as Q. rewrite (ll_fin ll x) in Q by auto. injection Q as <-. reflexivity. }
  rewrite A. f_equal.
  rewrite <- (ll_total (fun i => x i (nth i (c_ci t') 0%nat) r) r). apply bsum_ext. intros o _. apply lsumR_map_ext.
  intros i Hi. apply filter_In in Hi. destruct Hi as [_ Hi]. now destruct (K i o Hi) as [-> _].
Qed.
End Good.

Lemma mk_ok_iff nf nin ch depth reps sizes perms :
  (exists m, mk_factorize nf nin ch depth reps sizes perms = Ok m) <-> (2 ^ depth <= nf)%nat.
Proof.
  unfold mk_factorize. destruct (Nat.ltb_spec nf (2 ^ depth)) as [H|H].
  - split; [intros (m & E); discriminate|intros; lia].
  - split; [auto|eauto].
Qed.
