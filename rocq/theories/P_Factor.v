(** Properties C36, C120-C123: Factorize. *)
From Coq Require Import List Arith Bool Reals Lra Lia Permutation.
From Verif Require Import Base ScopeModel ScopeProofs CircuitModel SampleModel SampleSpec FactorModel FactorProofs FactorTop.
Import ListNotations.
Local Open Scope R_scope.

(** ** C36: random factorisation.
    [sizes] is any shuffle of the group sizes and [perms r] any permutation of the
    features: the statements hold for every random draw. *)
(** The constructor succeeds exactly when there are at least 2^depth variables; then in
    every repetition each feature is in exactly one of the 2^depth groups, no group is
    empty and group sizes differ by at most one. *)
Theorem C36_partition : forall nf nin ch depth reps sizes perms,
  ((exists m, mk_factorize nf nin ch depth reps sizes perms = Ok m) <-> (2 ^ depth <= nf)%nat) /\
  (Permutation sizes (base_sizes nf (2 ^ depth)) -> (forall r, Permutation (perms r) (seq 0 nf)) ->
   forall m, mk_factorize nf nin ch depth reps sizes perms = Ok m ->
   forall r,
   (forall i, (i < nf)%nat -> exists o, (o < 2 ^ depth)%nat /\ fc_mat m r i o = true /\
                                  forall o', fc_mat m r i o' = true -> o' = o) /\
   (forall o, (o < 2 ^ depth)%nat ->
      let n := length (filter (fun i => fc_mat m r i o) (seq 0 nf)) in
      (1 <= n /\ nf / 2 ^ depth <= n <= nf / 2 ^ depth + 1)%nat)).
Proof.
  intros nf nin ch depth reps sizes perms. split; [apply mk_ok_iff|]. intros Hs Hp m Hm r. split.
  - intros i Hi. destruct (owner_exists _ _ _ _ _ _ _ _ Hs Hp Hm r i Hi) as (o & Ho & E). exists o.
    split; [exact Ho|]. split; [exact E|]. intros o' E'. exact (owner_unique _ _ _ _ _ _ _ _ Hs Hp Hm r i o' o E' E).
  - intros o Ho. exact (group_size _ _ _ _ _ _ _ _ Hs Hp Hm r o Ho).
Qed.
Print Assumptions C36_partition.
(** five features, depth 1, groups of three and two *)
Example C36_partition_ok : exists m, mk_factorize 5 5 1 1 2 [2; 3]%nat (fun _ => [3; 0; 4; 1; 2]%nat) = Ok m /\
  Permutation [2; 3]%nat (base_sizes 5 (2 ^ 1)) /\ Permutation [3; 0; 4; 1; 2]%nat (seq 0 5) /\
  map (fc_mat m 0 3) [0; 1]%nat = [true; false] /\ map (fc_mat m 0 4) [0; 1]%nat = [false; true].
Proof.
  eexists. split; [reflexivity|]. split; [apply perm_swap|]. split; [|split; reflexivity].
  apply NoDup_Permutation.
  - repeat constructor; cbn; intuition lia.
  - apply seq_NoDup.
  - intros x. rewrite in_seq. cbn. split; intros H; lia.
Qed.

(** Finite input log-likelihoods: each output is the sum over its group; the outputs add
    up to the sum over all features. *)
Theorem C36_log_likelihood : forall nf ch depth reps sizes perms m,
  Permutation sizes (base_sizes nf (2 ^ depth)) -> (forall r, Permutation (perms r) (seq 0 nf)) ->
  mk_factorize nf nf ch depth reps sizes perms = Ok m ->
  forall ll (x : nat -> nat -> nat -> R) c r, (forall i, (i < nf)%nat -> ll i c r = Fin (x i c r)) ->
  (forall o, fact_ll m ll o c r =
     Ok (Some (Fin (lsumR (map (fun i => x i c r) (filter (fun i => fc_mat m r i o) (seq 0 nf))))))) /\
  bsum (2 ^ depth) (fun o => lsumR (map (fun i => x i c r) (filter (fun i => fc_mat m r i o) (seq 0 nf))))
    = bsum nf (fun i => x i c r).
Proof.
  intros nf ch depth reps sizes perms m Hs Hp Hm ll x c r H. split.
  - intros o. exact (ll_fin _ _ _ _ _ _ _ Hm ll x o c r H).
  - exact (ll_total _ _ _ _ _ _ _ Hs Hp Hm (fun i => x i c r) r).
Qed.
Print Assumptions C36_log_likelihood.

(** The scope of an output is the union of the scopes of its group. *)
Theorem C36_scopes : forall nf nin ch depth reps sizes perms m,
  Permutation sizes (base_sizes nf (2 ^ depth)) -> (forall r, Permutation (perms r) (seq 0 nf)) ->
  mk_factorize nf nin ch depth reps sizes perms = Ok m ->
  forall f2s r o, length f2s = nf -> Forall valid f2s -> (o < 2 ^ depth)%nat ->
  exists s, fact_scopes m f2s r o = Ok s /\ valid s /\
    forall v, In v (query s) <-> exists i, (i < nf)%nat /\ fc_mat m r i o = true /\ In v (query (nth i f2s (mkScope [] []))).
Proof.
  intros nf nin ch depth reps sizes perms m Hs Hp Hm f2s r o. exact (scopes_ok _ _ _ _ _ _ _ _ Hs Hp Hm f2s r o).
Qed.
Print Assumptions C36_scopes.

(** Sampling routes the channel and mask of an output to every feature of its group, and
    the routed features together have the probability of the chosen outputs. *)
Theorem C36_sampling : forall nf ch depth reps sizes perms m,
  Permutation sizes (base_sizes nf (2 ^ depth)) -> (forall r, Permutation (perms r) (seq 0 nf)) ->
  mk_factorize nf nf ch depth reps sizes perms = Ok m ->
  forall t, validate [1%nat; (2 ^ depth)%nat] ch reps t = true ->
  exists t', fact_route m t = Ok t' /\ length (c_ci t') = nf /\ length (c_mask t') = nf /\ c_rep t' = c_rep t /\
   (forall i o, fc_mat m (c_rep t) i o = true ->
      nth i (c_ci t') 0%nat = chan_at t o /\ nth i (c_mask t') false = mask_at t o) /\
   (forall ll (x : nat -> nat -> nat -> R) out, (forall i c r, ll i c r = Fin (x i c r)) ->
     (forall o, (o < 2 ^ depth)%nat -> fact_ll m ll o (chan_at t o) (c_rep t) = Ok (Some (out o))) ->
     bprod nf (fun i => pr (ll i (nth i (c_ci t') 0%nat) (c_rep t))) = bprod (2 ^ depth) (fun o => pr (out o))).
Proof.
  intros nf ch depth reps sizes perms m Hs Hp Hm t V.
  destruct (route_ok _ _ _ _ _ _ _ Hs Hp Hm t V) as (t' & E & A & B & C & K).
  exists t'. repeat (split; [assumption|]). intros ll x out Hl Ho.
  exact (route_prob _ _ _ _ _ _ _ Hs Hp Hm t t' ll x Hl V E out Ho).
Qed.
Print Assumptions C36_sampling.
Example C36_sampling_ok : exists m, mk_factorize 5 5 3 1 2 [2; 3]%nat (fun _ => [3; 0; 4; 1; 2]%nat) = Ok m /\
  validate [1; 2]%nat 3 2 (mkCtx [2; 1]%nat [true; false] 1) = true /\
  fact_route m (mkCtx [2; 1]%nat [true; false] 1) = Ok (mkCtx [2; 1; 1; 2; 1]%nat [true; false; false; true; false] 1).
Proof. eexists. split; [reflexivity|]. split; reflexivity. Qed.

(** ** Refuted *)
Definition f4 : fact := mkFact 4 4 1 1 1 (fun _ i o => entry [[0; 1]; [2; 3]]%nat i o).
Lemma f4_built : mk_factorize 4 4 1 1 1 [2; 2]%nat (fun _ => [0; 1; 2; 3]%nat) = Ok f4.
Proof. reflexivity. Qed.
(** C120: a zero-probability feature of one group leaves the other groups unaffected.
    False: 0 * -inf is NaN. *)
Theorem C120_impossible_feature_refuted : exists m ll, mk_factorize 4 4 1 1 1 [2; 2]%nat (fun _ => [0; 1; 2; 3]%nat) = Ok m /\
  fc_mat m 0 0 1 = false /\ (forall i, fc_mat m 0 i 1 = true -> ll i 0%nat 0%nat = Fin 0) /\ ll 0%nat 0%nat 0%nat = NInf /\
  fact_ll m ll 1 0 0 = Ok None.
Proof.
  exists f4, (fun i _ _ => match i with O => NInf | _ => Fin 0 end). split; [reflexivity|]. split; [reflexivity|]. split.
  - intros [|i] H; [discriminate|reflexivity].
  - split; reflexivity.
Qed.
Print Assumptions C120_impossible_feature_refuted.
(** C121: marginalising some of the variables always gives a module.  False: it raises
    when fewer than 2^depth variables remain. *)
Theorem C121_marginalize_raises_refuted : exists m kept, kept <> [] /\ (forall i, In i kept -> (i < 4)%nat) /\
  mk_factorize 4 4 1 2 1 [1; 1; 1; 1]%nat (fun _ => [0; 1; 2; 3]%nat) = Ok m /\
  forall prune sizes perms, fact_marg m prune kept sizes perms = Err.
Proof.
  eexists. exists [0; 1; 2]%nat. split; [discriminate|]. split; [cbn; intuition lia|]. split; [reflexivity|].
  intros [] sizes perms; reflexivity.
Qed.
Print Assumptions C121_marginalize_raises_refuted.
(** C122: marginalising keeps the groups of the remaining variables.  False: the groups
    are drawn afresh; here features 0 and 1 shared a group and no longer do. *)
Theorem C122_marginalize_regroups_refuted : exists m m' sizes perms, mk_factorize 4 4 1 1 1 [2; 2]%nat (fun _ => [0; 1; 2; 3]%nat) = Ok m /\
  Permutation sizes (base_sizes 3 (2 ^ 1)) /\ (forall r, Permutation (perms r) (seq 0 3)) /\
  fact_marg m true [0; 1; 2]%nat sizes perms = Ok (Some (Some m')) /\
  (forall o, fc_mat m 0 0 o = fc_mat m 0 1 o) /\ fc_mat m' 0 0 0 = true /\ fc_mat m' 0 1 0 = false.
Proof.
  exists f4. eexists. exists [2; 1]%nat, (fun _ => [0; 2; 1]%nat). split; [reflexivity|]. split; [apply Permutation_refl|].
  split; [intros _; cbn; apply perm_skip, perm_swap|]. split; [reflexivity|]. split.
  - intros [|[|o]]; try reflexivity. cbn. now destruct o.
  - split; reflexivity.
Qed.
Print Assumptions C122_marginalize_regroups_refuted.
(** C123: every feature of the input enters the product exactly once.  False when an
    input feature covers several variables: the matrix has one row per variable, and a
    single feature over two variables is counted in every group (einsum broadcasts). *)
Theorem C123_wide_feature_refuted : exists m (x : R), mk_factorize 2 1 1 1 1 [1; 1]%nat (fun _ => [0; 1]%nat) = Ok m /\
  fact_ll m (fun _ _ _ => Fin x) 0 0 0 = Ok (Some (Fin x)) /\ fact_ll m (fun _ _ _ => Fin x) 1 0 0 = Ok (Some (Fin x)) /\
  x + x <> x.
Proof.
  eexists. exists (-1). split; [reflexivity|]. split; [|split; [|lra]]; cbn; repeat f_equal; lra.
Qed.
Print Assumptions C123_wide_feature_refuted.
