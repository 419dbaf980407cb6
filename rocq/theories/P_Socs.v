(** Property theorems: signed circuits, inner products, sums of compatible
    squares (C28, C44-C46, C89-C95). *)
From Coq Require Import List Arith ZArith Bool Reals Lia Lra Sorted.
From Verif Require Import Base ScopeModel ScopeProofs CircuitModel CircuitBasics CircuitEval CircuitSpec Integral
  LeafModel LeafSpec SampleModel SampleSpec SignedModel SignedSpec SignedProofs IpProofs SocsProofs MhProofs SocsTop SocsSample SocsExamples.
Import ListNotations.
Local Open Scope R_scope.

(** C28: for real numbers a_i encoded as (log|a_i|, sign a_i), signed_logsumexp
    returns (log|S|, sign S) with S the sum of the a_i; log 0 is -inf. *)
Definition encode (a : R) : lval * Z := (lfrom (Rabs a), sgn a).

Theorem C28_signed_logsumexp : forall n (a : nat -> R), (0 < n)%nat ->
  signed_logsumexp n (fun i => encode (a i)) = Ok (encode (bsum n a)).
Proof.
  intros n a Hn. unfold signed_logsumexp. destruct (Nat.eqb_spec n 0); [lia|]. f_equal.
  assert (forall b, real_of (encode b) = b) as E.
  { intros b. unfold real_of, encode. cbn [fst snd]. rewrite pr_lfrom by apply Rabs_pos. unfold sgn, Rabs.
    destruct (Rlt_dec b 0), (Rcase_abs b); try lra. destruct (Rlt_dec 0 b); lra. }
  destruct (slse_spec n (fun i => encode (a i))) as (_ & A & B).
  rewrite (bsum_ext n _ a) in A, B by (intros; apply E).
  destruct (slse n (fun i => encode (a i))) as [l s]. cbn [fst snd] in A, B. unfold encode. f_equal; [|exact B].
  apply pr_inj. rewrite A, pr_lfrom; [reflexivity|apply Rabs_pos].
Qed.
Print Assumptions C28_signed_logsumexp.

(** ... and evaluating a circuit with SignedSum and SignedCategorical modules
    gives the signed linear combinations it denotes, at every output. *)
Theorem C28_signed_eval : forall Rr x m, constructed Rr m -> uniform_support m -> exact_weights m -> complete m x ->
  forall t, seval x m = Ok t -> forall f c r, pos_ok Rr m f c r -> real_of (t f c r) = fun_of m x f c r.
Proof.
  intros Rr x m [B U] S W C t E f c r P. exact (seval_val Rr x m (built_wf _ B) U S W (complete_cols _ _ C) t E f c r P).
Qed.
Print Assumptions C28_signed_eval.

Example C28_nonvacuous : component 1 two compS /\ complete compS (rowkj 0 1) /\ (exists t, seval (rowkj 0 1) compS = Ok t) /\
  fun_of compS (rowkj 0 1) 0%nat 0%nat 0%nat = -1.
Proof.
  assert (complete compS (rowkj 0 1)) as HC.
  { split; [intros v [<-|[<-|[]]]; cbn; eauto|]. constructor; [|constructor]. intros v [<-|[<-|[]]]; eexists; reflexivity. }
  split; [exact compS_ok|]. split; [exact HC|]. split.
  - pose proof compS_ok as [[B _] _ _ _ US _ _]. apply seval_ok; auto; [exact I|now apply built_wf|].
    constructor; [|constructor]. intros v [<-|[<-|[]]]; [exists 0%nat|exists 1%nat]; (split; [lia|reflexivity]).
  - cbn [fun_of compS sc2]. unfold schan, sfeat. cbn [skel out_shape channels features l_ch sl_ch bsum bprod l_scope sl_scope query length].
    unfold leaf_fun. cbn [sl_scope query nth rowkj]. unfold state_of.
    cbn. rewrite LeafProofs.asnat_0, LeafProofs.asnat_1. change (0 <? 2)%nat with true. change (1 <? 2)%nat with true. cbv iota. lra.
Qed.
Example C28_cancellation : signed_logsumexp 3 (fun i => encode (match i with O => 3 | 1%nat => -5 | _ => 2 end)) = Ok (NInf, 0%Z).
Proof.
  rewrite C28_signed_logsumexp by lia. unfold encode. f_equal. cbn [bsum]. replace (0 + 3 + -5 + 2) with 0 by ring.
  unfold sgn. destruct (Rlt_dec 0 0); [lra|]. f_equal. apply pr_inj. rewrite pr_lfrom by apply Rabs_pos. apply Rabs_R0.
Qed.

(** C44: whatever inner_product_matrix returns is the sum (discrete variables) or
    integral (real variables) over all complete assignments of the product of the
    two circuits' values, for every pair of output channels. *)
Theorem C44_inner_product : forall Rr D a b k vars, constructed Rr a -> constructed Rr b -> sorted_leaves a -> sorted_leaves b ->
  Forall (sleaf_fits D) (sleaves a) -> Forall (sleaf_fits D) (sleaves b) ->
  (forall la lb, In la (sleaves a) -> In lb (sleaves b) -> query (sl_scope la) = query (sl_scope lb) -> exact_leaves la lb) ->
  inner_product_matrix a b = Ok k ->
  forall f ca cb r, pos_ok Rr a f ca r -> pos_ok Rr b f cb r ->
  NoDup vars -> (forall v, In v vars <-> In v (vars_of a f)) ->
  forall x, sums_over D vars (fun y => fun_of a y f ca r * fun_of b y f cb r) x (k f ca cb r).
Proof. exact ip_integral. Qed.
Print Assumptions C44_inner_product.

Example C44_nonvacuous : exists k, inner_product_matrix compS compS = Ok k /\ k 0%nat 0%nat 0%nat 0%nat = 25 / 8 /\ component 1 two compS /\
  (forall v, In v [0; 1]%nat <-> In v (vars_of compS 0)) /\ pos_ok 1 compS 0 0 0.
Proof.
  exists K_S. split; [exact ip_S|]. split; [exact val_S|]. split; [exact compS_ok|]. split; [intros v; split; intros H; exact H|constructor; cbn; lia].
Qed.

(** C90: the inner product pairs the leaves' features by position: two circuits
    denoting the same function, their leaves listing the variables in different
    orders, get 1/4 where the exact value is 5/16. *)
Theorem C90_variable_order_refuted : exists a b k,
  (forall x, fun_of a x 0%nat 0%nat 0%nat = fun_of b x 0%nat 0%nat 0%nat) /\
  constructed 1 a /\ constructed 1 b /\ pos_ok 1 a 0 0 0 /\
  inner_product_matrix a b = Ok k /\
  sums_over two [0; 1]%nat (fun y => fun_of a y 0%nat 0%nat 0%nat * fun_of b y 0%nat 0%nat 0%nat) blank (5 / 16) /\
  k 0%nat 0%nat 0%nat 0%nat = 1 / 4.
Proof.
  exists ordA, ordB, K_AB. split; [exact ord_same|]. split; [split; [cbn; apply b_leaf2; reflexivity|reflexivity]|].
  split; [split; [cbn; apply b_leaf2; reflexivity|reflexivity]|]. split; [constructor; cbn; lia|]. split; [exact ip_AB|]. split; [|exact val_AB].
  rewrite <- val_AA. apply (IpProofs.sums_over_ext two [0; 1]%nat (fun y => fun_of ordA y 0%nat 0%nat 0%nat * fun_of ordA y 0%nat 0%nat 0%nat));
    [intros; now rewrite ord_same|].
  assert (constructed 1 ordA) as C by (split; [cbn; apply b_leaf2; reflexivity|reflexivity]).
  assert (sorted_leaves ordA) as S by repeat constructor.
  assert (Forall (sleaf_fits two) (sleaves ordA)) as F.
  { constructor; [|constructor]. cbn. intros. split; [reflexivity|left; reflexivity]. }
  apply (ip_integral 1 two ordA ordA K_AA [0; 1]%nat C C S S F F).
  - intros la lb [<-|[]] [<-|[]] _. cbn. intros. exact I.
  - exact ip_AA.
  - constructor; cbn; lia.
  - constructor; cbn; lia.
  - repeat constructor; cbn; intuition lia.
  - intros v. split; intros H; exact H.
Qed.
Print Assumptions C90_variable_order_refuted.

(** C45: SOCS.log_likelihood at a complete row is log(sum_i c_i(x)^2 / Z) where Z is
    the sum or integral of sum_i c_i^2 over all complete assignments; the total
    mass is one. *)
Theorem C45_density : forall Rr D cs Z f c r vars,
  cs <> [] -> Forall (component Rr D) cs -> partition cs = Ok Z ->
  Forall (fun m => pos_ok Rr m f c r) cs -> NoDup vars -> Forall (fun m => forall v, In v vars <-> In v (vars_of m f)) cs ->
  tiny <= Z f c r ->
  (forall x, sums_over D vars (fun y => squares cs y f c r) x (Z f c r)) /\
  (forall x t, Forall (fun m => complete m x) cs -> socs_ll cs x = Ok t -> pr (t f c r) = squares cs x f c r / Z f c r) /\
  (forall x, sums_over D vars (fun y => squares cs y f c r / Z f c r) x 1).
Proof.
  intros Rr D cs Z f c r vars Hne HC EZ HP ND HV HZ. split; [|split].
  - intros x. exact (partition_integral Rr D cs Z f c r vars x Hne HC EZ HP ND HV).
  - intros x t Hx Et. rewrite (socs_value Rr cs x t Z f c r); auto; [now rewrite Rmax_left|].
    rewrite Forall_forall in *. intros m Hm. destruct (HC m Hm). auto 10.
  - intros x. pose proof (socs_mass Rr D cs Z f c r vars x Hne HC EZ HP ND HV HZ) as M. now rewrite Rmax_left in M by assumption.
Qed.
Print Assumptions C45_density.

(** ... and it does not raise on rows inside the leaves' supports. *)
Theorem C45_accepts : forall cs x Z, Forall (fun m => built (skel m) /\ sums_monotone m /\ uniform_support m /\ in_support m x) cs ->
  partition cs = Ok Z -> exists t, socs_ll cs x = Ok t.
Proof. exact socs_accepts. Qed.
Print Assumptions C45_accepts.

Example C45_nonvacuous : mk_socs exC = Ok exC /\ Forall (component 1 two) exC /\
  (exists Z, partition exC = Ok Z /\ Z 0%nat 0%nat 0%nat = 873 / 256) /\
  (forall y, In y xs2 -> exists t, socs_ll exC y = Ok t).
Proof.
  split; [reflexivity|]. split; [constructor; [exact compS_ok|constructor; [exact compM_ok|constructor]]|]. split; [exact exC_part|].
  intros y Hy. destruct exC_part as (Z & EZ & _). exact (socs_accepts exC y Z (exC_accepts y Hy) EZ).
Qed.

(** C89: with missing cells SOCS.log_likelihood is not the marginal: the row with
    nothing observed has "density" 2. *)
Theorem C89_socs_missing_refuted : exists cs t,
  Forall (component 1 two) cs /\ mk_socs cs = Ok cs /\
  socs_ll cs (fun _ => None) = Ok t /\ pr (t 0%nat 0%nat 0%nat) = 2.
Proof.
  destruct nanC_blank as (t & E & V). exists nanC, t. split; [|split; [reflexivity|split; [exact E|exact V]]].
  constructor; [|constructor]. constructor.
  - split; [cbn; apply b_leaf; reflexivity|reflexivity].
  - repeat constructor.
  - constructor; [|constructor]. cbn. intros. split; [reflexivity|left; reflexivity].
  - intros la lb [<-|[]] [<-|[]] _. cbn. intros. exact I.
  - constructor; [|constructor]. intros f c r _ a. reflexivity.
  - split; [exact I|]. constructor; [exact I|constructor].
  - cbn. constructor; [exact I|constructor].
Qed.
Print Assumptions C89_socs_missing_refuted.

(** C91: a state with weight zero gets a positive density when the component is a
    SignedCategorical that is not below a SignedSum. *)
Theorem C91_zero_weight_refuted : exists cs t, mk_socs cs = Ok cs /\ Forall (constructed 1) cs /\
  squares cs (fun _ => Some 1) 0%nat 0%nat 0%nat = 0 /\
  socs_ll cs (fun _ => Some 1) = Ok t /\ 0 < pr (t 0%nat 0%nat 0%nat).
Proof.
  destruct zeroC_val as (t & E & V). exists zeroC, t. split; [reflexivity|]. split.
  - constructor; [|constructor]. split; [cbn; apply b_leaf; reflexivity|reflexivity].
  - split; [|split; [exact E|exact V]]. unfold squares. cbn [map zeroC lsumR sc2 fun_of leaf_fun sl_scope query nth].
    unfold state_of. replace (LeafModel.asnat 1) with (Some 1%nat) by (now rewrite LeafProofs.asnat_1). cbn. change (1 <? 2)%nat with true. cbv iota. unfold w10. lra.
Qed.
Print Assumptions C91_zero_weight_refuted.

(** C94: SOCS.marginalize marginalises the components before squaring; the result
    is not the marginal of the density (25/34 instead of 218/292). *)
Theorem C94_socs_marginalize_refuted : exists cs cs' x t t0 t1,
  Forall (component 1 two) cs /\ mk_socs cs = Ok cs /\
  socs_marginalize [1]%nat true cs = Ok (Some cs') /\
  socs_ll cs' x = Ok t /\ socs_ll cs (upd x 1 (Some 0)) = Ok t0 /\ socs_ll cs (upd x 1 (Some 1)) = Ok t1 /\
  pr (t 0%nat 0%nat 0%nat) <> pr (t0 0%nat 0%nat 0%nat) + pr (t1 0%nat 0%nat 0%nat).
Proof.
  assert (forall j, (j < 2)%nat -> exists t, socs_ll [compM] (rowkj 0 j) = Ok t) as H.
  { intros j Hj. apply (socs_accepts [compM] _ (fun f c r => K_M f c c r + 0)); [|unfold partition; cbn [mapR]; rewrite ip_M; reflexivity].
    pose proof compM_ok as [[B _] _ _ _ US _ _]. constructor; [|constructor]. split; [assumption|]. split; [exact I|]. split; [assumption|].
    constructor; [|constructor]. cbn [fl_scope mk_fleaf query fl_fam length]. intros f c r Hf _ _.
    destruct f as [|[|f]]; [exists (INR 0)|exists (INR j)|lia]; (split; [reflexivity|apply cat_supp; lia]). }
  assert (exists t, socs_ll [margC] (rowkj 0 0) = Ok t) as (t & Et).
  { apply (socs_accepts [margC] _ (fun f c r => K_mg f c c r + 0)); [|unfold partition; cbn [mapR]; rewrite ip_mg; reflexivity].
    pose proof margC_ok as [[B _] _ _ _ US _ _]. constructor; [|constructor]. split; [assumption|]. split; [exact I|]. split; [assumption|].
    constructor; [|constructor]. cbn [fl_scope mk_fleaf query fl_fam length]. intros f c r Hf _ _.
    destruct f as [|f]; [exists (INR 0)|lia]. split; [reflexivity|apply cat_supp; lia]. }
  destruct (H 0%nat ltac:(lia)) as (t0 & E0), (H 1%nat ltac:(lia)) as (t1 & E1).
  destruct (margC_gap t t0 t1 Et E0 E1) as [V1 V2].
  assert (forall j, upd (rowkj 0 0) 1 (Some (INR j)) = rowkj 0 j) as Eu.
  { intros j. apply FunctionalExtensionality.functional_extensionality. intros v. unfold upd, rowkj. destruct v as [|[|v]]; reflexivity. }
  exists [compM], [margC], (rowkj 0 0), t, t0, t1. split; [constructor; [exact compM_ok|constructor]|]. split; [reflexivity|]. split; [exact margC_eq|].
  split; [exact Et|]. split; [rewrite <- (Eu 0%nat) in E0; exact E0|]. split; [rewrite <- (Eu 1%nat) in E1; exact E1|].
  rewrite V1, V2. lra.
Qed.
Print Assumptions C94_socs_marginalize_refuted.

(** C46: the transition of the sampler satisfies detailed balance with respect to
    the squared component, whatever the (unnormalised) log-target and log-proposal. *)
Theorem C46_detailed_balance : forall (lt lq : nat -> lval) x y,
  pr (lt x) * (pr (lq y) * accept_prob (log_alpha (lt x) (lt y) (lq x) (lq y))) =
  pr (lt y) * (pr (lq x) * accept_prob (log_alpha (lt y) (lt x) (lq y) (lq x))).
Proof. exact detailed_balance. Qed.
Print Assumptions C46_detailed_balance.

(** Any number of steps leaves the target invariant: starting from a state with
    probability proportional to the target, expectations do not change. *)
Theorem C46_invariant : forall D n (lt lq : nat -> lval) steps g, bsum n (fun y => pr (lq y)) = 1 ->
  exists h, (forall x, expects D (mh_loop n lt lq steps x) g (h x)) /\
  bsum n (fun x => pr (lt x) * h x) = bsum n (fun x => pr (lt x) * g x).
Proof.
  intros D n lt lq steps g Q. exists (loop_exp n lt lq g steps). split; [intros x; apply mh_loop_exp|exact (loop_invariant n lt lq Q g steps)].
Qed.
Print Assumptions C46_invariant.

(** SOCS.sample over finite domains: expectations under the sampler converge
    geometrically in the number of MCMC steps to those under the SOCS density. *)
Theorem C46_sampling_converges : forall (D : nat -> domain) (dom : nat -> list R) (vars : list nat) (x0 : row),
  (forall v, In v vars -> D v = DFin (dom v)) -> NoDup vars ->
  forall cs Z, cs <> [] -> Forall (member D vars) cs -> partition cs = Ok Z ->
  Forall (fun m => forall k, inner_product_matrix m m = Ok k -> tiny <= k 0%nat 0%nat 0%nat 0%nat) cs ->
  exists beta, 0 < beta <= 1 /\
  forall burn steps p, socs_sample (assignments dom vars x0) cs burn steps = Ok p ->
  forall g lo hi, (forall y, In y (assignments dom vars x0) -> lo <= g y <= hi) ->
  exists u, expects D p (fun i => g (nth i (assignments dom vars x0) x0)) u /\
    Rabs (u - lsumR (map (fun y => squares cs y 0%nat 0%nat 0%nat / Z 0%nat 0%nat 0%nat * g y) (assignments dom vars x0)))
      <= (1 - beta) ^ (burn + steps) * (hi - lo).
Proof. exact socs_sample_converges. Qed.
Print Assumptions C46_sampling_converges.

Example C46_nonvacuous : Forall (member two vs2) exC /\ (exists Z, partition exC = Ok Z) /\
  Forall (fun m => forall k, inner_product_matrix m m = Ok k -> tiny <= k 0%nat 0%nat 0%nat 0%nat) exC /\
  (forall burn steps, (1 <= steps)%nat -> exists p, socs_sample (assignments dom2 vs2 blank) exC burn steps = Ok p).
Proof.
  split; [exact exC_members|]. split; [destruct exC_part as (Z & E & _); eauto|]. split; [exact exC_tiny|exact exC_samples].
Qed.

(** C92: a component with a SignedSum of several output channels can be evaluated
    but never sampled. *)
Theorem C92_multichannel_sampling_refuted : exists cs,
  Forall (fun m => built (skel m)) cs /\ map (fun m => out_shape (skel m)) cs = [mkShape 1 1 1] /\
  (forall y, In y (assignments dom2 vs2 blank) -> exists t, socs_ll cs y = Ok t) /\
  forall burn steps, socs_sample (assignments dom2 vs2 blank) cs burn steps = Err.
Proof. exists multiC'. split; [exact multiC_built|]. split; [reflexivity|]. split; [exact multiC_ll|exact multiC_fails]. Qed.
Print Assumptions C92_multichannel_sampling_refuted.

(** C93: the sampler is only asymptotically right: for the square of the
    distribution (2/3, 1/3), the first state has density 4/5 but is drawn with a
    different probability for every number of steps. *)
Theorem C93_exact_sampling_refuted : exists cs Z, Forall (component 1 two) cs /\ partition cs = Ok Z /\
  squares cs (nth 0 xs1 blank) 0%nat 0%nat 0%nat / Z 0%nat 0%nat 0%nat = 4 / 5 /\
  forall burn steps, (1 <= steps)%nat -> exists p, socs_sample xs1 cs burn steps = Ok p /\
  forall u, expects two p (fun i => if Nat.eqb i 0 then 1 else 0) u -> u <> 4 / 5.
Proof.
  exists mhC. assert (exists Z, partition mhC = Ok Z /\ Z 0%nat 0%nat 0%nat = 5 / 9) as (Z & EZ & VZ).
  { eexists. split; [unfold partition, mhC; cbn [mapR]; rewrite ip_mh; reflexivity|]. cbn [map lsumR]. unfold K_mh. cbn -[softmax p23].
    rewrite !p23_soft by lia. unfold p23. lra. }
  exists Z. split; [constructor; [exact mhC_ok|constructor]|]. split; [exact EZ|]. split.
  - rewrite VZ. unfold squares, mhC. cbn [map lsumR].
    assert (fun_of (cat2 [0]%nat 1 p23) (nth 0 xs1 blank) 0%nat 0%nat 0%nat = 2 / 3) as ->; [|lra].
    cbn [fun_of cat2]. unfold leaf_fun. cbn [sl_scope fl_scope mk_fleaf query nth fl_fam].
    change (nth 0 xs1 blank 0%nat) with (Some (INR 0)). cbv iota beta. rewrite LeafProofs.pr_categorical by lia. apply p23_soft. lia.
  - intros burn steps Hs. destruct (mhC_samples burn steps Hs) as (p & E). exists p. split; [exact E|]. intros u Hu.
    rewrite (mhC_never burn steps p E u Hu). assert (0 < (1 / 6) ^ (burn + steps)) by (apply pow_lt; lra). lra.
Qed.
Print Assumptions C93_exact_sampling_refuted.

(** C95: the components build_socs makes from a template share its scope, output
    shape and leaves, so the SOCS constructor accepts them. *)
Theorem C95_build_socs : forall template copies, copies <> [] -> Forall (signed_copy template) copies ->
  mk_socs copies = Ok copies /\
  Forall (fun m => scope_of (skel m) = scope_of (skel template) /\ out_shape (skel m) = out_shape (skel template) /\
                   fts (skel m) = fts (skel template) /\ sleaves m = sleaves template) copies.
Proof.
  intros t cs Hne H. rewrite Forall_forall in H.
  assert (forall m, In m cs -> scope_of (skel m) = scope_of (skel t) /\ out_shape (skel m) = out_shape (skel t) /\ fts (skel m) = fts (skel t) /\ sleaves m = sleaves t) as F.
  { intros m Hm. pose proof (copy_sim t m (H m Hm)) as S. pose proof (copy_leaves t m (H m Hm)) as L.
    rewrite (sim_shape _ _ S), (sim_fts _ _ S), (sim_scope _ _ S). auto. }
  split; [|now apply Forall_forall]. unfold mk_socs. destruct cs as [|c0 cs]; [congruence|].
  assert (forallb (fun c => all_equal [scope_of (skel c0); scope_of (skel c)] && shape_eqb (out_shape (skel c)) (out_shape (skel c0)))%bool (c0 :: cs) = true) as ->; [|reflexivity].
  apply forallb_forall. intros m Hm. destruct (F m Hm) as (E1 & E2 & _), (F c0 ltac:(now left)) as (E3 & E4 & _).
  rewrite E1, E2, E3, E4. unfold all_equal, shape_eqb. cbn [ae_loop].
  assert (forall s, scope_eqb s s = true) as R by (intros s; apply scope_eqb_spec; tauto). rewrite R. cbn. now rewrite !Nat.eqb_refl.
Qed.
Print Assumptions C95_build_socs.

Example C95_nonvacuous : exists w, signed_copy compM (SSigned (SProduct (cat2 [0; 1]%nat 2 pm)) 1 1 w).
Proof. exists (fun _ i _ _ => match i with O => -1 | _ => 2 end). repeat constructor. Qed.
