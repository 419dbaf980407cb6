(** Einet as a whole: what it computes, when it can be built.

    Fixed throughout: leaf modules covering one variable per feature ([leaves_ok]) and the
    random draws of the Factorize layer ([draw_ok]). *)
From Coq Require Import List Arith Bool Reals Lia Lra Permutation.
From Verif Require Import Base ScopeModel ScopeProofs CircuitModel CircuitSpec CircuitBasics CircuitEval Integral CircuitMarg CircuitProps
  CircuitExamples SampleModel SampleExp EmModel SplitModel SplitProofs LayerModel LayerSpec LayerProofs FactorModel FactorProofs FactorTop
  StackModel StackSpec StackProofs StackDist StackTop StackRat StackNan StackRatTop StackEinSpec StackEin StackEinTop P_Rat.
Import ListNotations.
Local Open Scope R_scope.

Definition zero_ep : ein_par :=
  mkEP (fun _ _ _ _ _ => 0) (fun _ _ _ _ _ _ => 0) (fun _ _ _ _ => 0) (fun _ _ _ _ => 0) (fun _ _ _ => 0) (fun _ _ _ _ => 0).
(** two classes, three sums, depth one, two repetitions *)
Definition ein_ex (t : ltype) (topdown : bool) : ein_cfg := mkEin 2 3 2 1 2 t topdown.
Lemma ein_ex_fine t b : ein_fine (ein_ex t b) (ex_leaf 5 2 (fun _ _ => 1/2)).
Proof. unfold ein_fine, ein_ex. cbn. lia. Qed.

(** ** C189: the log-likelihood of an Einet is the logarithm of the mixture over classes
    and repetitions of the recursively defined region densities *)
Theorem C189_value : forall leaves c p d m s st,
  leaves_ok leaves m s (ei_reps c) -> draw_ok (length (query (scope_of m))) (ein_fdepth c (length (query (scope_of m)))) d ->
  mk_einet leaves c p d = Ok st ->
  exists grp, partitions (length (query (scope_of m))) (ei_reps c) (2 ^ ein_fdepth c (length (query (scope_of m)))) grp /\
  forall x, (forall f ch r, in_shape s f ch r -> loglik m x f ch r <> NInf) ->
  exists t, stack_ll st x = Ok t /\ t_sh (n_t t) = mkShape 1 1 1 /\
    0 < ein_density c p m s grp x /\ nval t 0 0 0 = FFin (ln (ein_density c p m s grp x)).
Proof.
  intros leaves c p d m s st HL Hd E. exists (fc_mat (k_fact st)). split.
  - destruct (ein_built leaves c p d m s HL (ein_ok_fine leaves c p d m s HL st E)) as (st' & de & E' & _ & Ef & _). rewrite E in E'. injection E' as <-.
    destruct Hd as [Hs Hp]. intros r i Hr Hi. destruct (owner_exists _ _ _ _ _ _ _ _ Hs Hp Ef r i Hi) as (g & Hg & Eg).
    exists g. split; [exact Hg|]. split; [exact Eg|]. intros h Eh. exact (owner_unique _ _ _ _ _ _ _ _ Hs Hp Ef r i h g Eh Eg).
  - intros x Hx. exact (ein_value leaves c p d m s HL st x E Hx).
Qed.
Print Assumptions C189_value.
Example C189_ex : forall t b, exists st,
  mk_einet [ex_leaf 5 2 (fun _ _ => 1/2)] (ein_ex t b) zero_ep (plain_draw 5 (ein_fdepth (ein_ex t b) 5)) = Ok st /\
  leaves_ok [ex_leaf 5 2 (fun _ _ => 1/2)] (ex_leaf 5 2 (fun _ _ => 1/2)) (mkShape 5 2 1) 2 /\
  draw_ok 5 (ein_fdepth (ein_ex t b) 5) (plain_draw 5 (ein_fdepth (ein_ex t b) 5)) /\
  forall f ch r, in_shape (mkShape 5 2 1) f ch r -> loglik (ex_leaf 5 2 (fun _ _ => 1/2)) (fun v => if Nat.eqb v 1 then None else Some 1) f ch r <> NInf.
Proof.
  intros t b. assert (HL := ex_leaves_ok 5 2 (fun _ _ => 1/2) 2 ltac:(lia) ltac:(lia)).
  destruct (ein_built [ex_leaf 5 2 (fun _ _ => 1/2)] (ein_ex t b) zero_ep (plain_draw 5 (ein_fdepth (ein_ex t b) 5)) _ _ HL (ein_ex_fine t b)) as (st & de & E & _).
  exists st. split; [exact E|]. split; [exact HL|]. split; [apply plain_ok|]. apply ex_fin; [intros; lra|]. intros v _. destruct (Nat.eqb v 1); auto.
Qed.

(** ** C190: an Einet describes a normalised distribution over the variables of its leaves,
    and leaving variables unobserved sums them out *)
Theorem C190_normalised : forall leaves c p d m s st D,
  leaves_ok leaves m s (ei_reps c) -> draw_ok (length (query (scope_of m))) (ein_fdepth c (length (query (scope_of m)))) d ->
  mk_einet leaves c p d = Ok st -> leaves_norm D m ->
  exists f : row -> R, (forall x, 0 <= f x) /\
    (forall x, (forall i ch r, in_shape s i ch r -> loglik m x i ch r <> NInf) ->
       exists t, stack_ll st x = Ok t /\ t_sh (n_t t) = mkShape 1 1 1 /\ nval t 0 0 0 = FFin (ln (f x)) /\ 0 < f x) /\
    (forall x, sums_over D (query (scope_of m)) f x 1) /\
    (forall ws x, NoDup ws -> incl ws (query (scope_of m)) -> sums_over D ws f x (f (set_nan ws x))).
Proof.
  intros leaves c p d m s st D HL Hd E Hn.
  exists (ein_density c p m s (fc_mat (k_fact st))).
  destruct (ein_dist leaves c p d m s HL Hd st D E Hn) as [A B].
  split; [exact B|]. split; [|split].
  - intros x Hx. destruct (ein_value leaves c p d m s HL st x E Hx) as (t & E1 & E2 & E3 & E4). exists t. auto.
  - assert (ND : NoDup (query (scope_of m))) by (apply (wf_scope m (wf_wf1 m (built_wf m (leaves_built _ _ _ _ HL))))).
    intros x. eapply sums_over_ext; [exact ND| |apply (is_dist_sums D _ _ A ND)].
    intros y _ _. cbn beta. now rewrite pr_lfrom.
  - intros ws x ND I. rewrite <- (pr_lfrom _ (B (set_nan ws x))). eapply sums_over_ext; [exact ND| |apply (is_dist_marginal D _ _ A ws ND I)].
    intros y _ _. cbn beta. now rewrite pr_lfrom.
Qed.
Print Assumptions C190_normalised.

(** ** C191: Einet accepts exactly the architectures its documentation allows *)
Theorem C191_construction : forall leaves c p d m s,
  leaves_ok leaves m s (ei_reps c) ->
  (exists st, mk_einet leaves c p d = Ok st) <-> ein_fine c m.
Proof.
  intros leaves c p d m s HL. split.
  - intros (st & E). exact (ein_ok_fine leaves c p d m s HL st E).
  - intros HF. destruct (ein_built leaves c p d m s HL HF) as (st & de & E & _). eauto.
Qed.
Print Assumptions C191_construction.
Example C191_ex : ein_fine (mkEin 1 1 1 2 1 Linsum true) (ex_leaf 4 3 (fun _ _ => 1/2)) /\
  ~ ein_fine (mkEin 1 1 1 2 1 Linsum true) (ex_leaf 3 3 (fun _ _ => 1/2)).
Proof. unfold ein_fine. cbn. lia. Qed.

(** ** C192: with two groups or more, a row gets NaN exactly if some observed value is
    impossible under some channel of its leaf; no row gets -inf *)
Theorem C192_nan : forall leaves c p d m s st x,
  leaves_ok leaves m s (ei_reps c) -> draw_ok (length (query (scope_of m))) (ein_fdepth c (length (query (scope_of m)))) d ->
  mk_einet leaves c p d = Ok st -> (1 <= ein_fdepth c (length (query (scope_of m))))%nat ->
  exists t, stack_ll st x = Ok t /\ nval t 0 0 0 <> FNInf /\
    (nval t 0 0 0 = FNan <-> exists i ch r, in_shape s i ch r /\ loglik m x i ch r = NInf).
Proof.
  intros leaves c p d m s st x HL Hd E HD.
  destruct (Classical_Prop.classic (exists i ch r, in_shape s i ch r /\ loglik m x i ch r = NInf)) as [(i & ch & r & IN & N)|NO].
  - destruct (ein_nan leaves c p d m s HL Hd st x i ch r E HD IN N) as (t & E1 & _ & E2).
    exists t. split; [exact E1|]. rewrite E2. split; [discriminate|]. split; [intros _; eauto 6|reflexivity].
  - destruct (ein_value leaves c p d m s HL st x E) as (t & E1 & _ & _ & E2).
    { intros f ch r IN N. apply NO. eauto 6. }
    exists t. split; [exact E1|]. rewrite E2. split; [discriminate|]. split; [discriminate|intros Q; contradiction].
Qed.
Print Assumptions C192_nan.
Example C192_ex : forall t, ein_fdepth (ein_ex t true) 5 = 1%nat /\ ein_fdepth (ein_ex t false) 5 = 2%nat.
Proof. intros t. split; reflexivity. Qed.

(** ** C193: a row of positive probability gets the logarithm of its probability from an
    Einet.  False: two Bernoulli variables with two channels, the first channel of
    variable 0 certain to be one; the row (0, 1) has positive probability and gets NaN *)
Definition ein1_cfg : ein_cfg := mkEin 1 1 2 1 1 Linsum true.
Theorem C193_possible_row_refuted : exists st t, mk_einet [ex_leaf 2 2 hard] ein1_cfg zero_ep (plain_draw 2 1) = Ok st /\
  leaves_ok [ex_leaf 2 2 hard] (ex_leaf 2 2 hard) (mkShape 2 2 1) 1 /\ leaves_norm (fun _ => bits) (ex_leaf 2 2 hard) /\
  ein_density ein1_cfg zero_ep (ex_leaf 2 2 hard) (mkShape 2 2 1) (fc_mat (k_fact st)) row01 = 1/8 /\
  stack_ll st row01 = Ok t /\ nval t 0 0 0 = FNan.
Proof.
  assert (HL := ex_leaves_ok 2 2 hard 1 ltac:(lia) ltac:(lia)).
  assert (HF : ein_fine ein1_cfg (ex_leaf 2 2 hard)) by (unfold ein_fine; cbn; lia).
  destruct (ein_built [ex_leaf 2 2 hard] ein1_cfg zero_ep (plain_draw 2 1) (ex_leaf 2 2 hard) (mkShape 2 2 1) HL HF) as (st & de & E & _ & Ef & _).
  destruct (ein_nan [ex_leaf 2 2 hard] ein1_cfg zero_ep (plain_draw 2 1) (ex_leaf 2 2 hard) (mkShape 2 2 1) HL
    (plain_ok 2 1) st row01 0 0 0 E) as (t & E1 & _ & E2).
  { cbn. lia. }
  { repeat split; cbn; lia. }
  { unfold loglik, ex_leaf. cbn [evalm]. unfold leaf_score. cbn. unfold bern_lp. destruct (Req_EM_T 0 1); [lra|]. destruct (Req_EM_T 0 0); [|lra].
    unfold lfrom. destruct (Rlt_dec 0 (1 - 1)); [lra|reflexivity]. }
  exists st, t. split; [exact E|]. split; [exact HL|]. split.
  { apply ex_norm. intros [|f] [|c]; cbn; lra. }
  split; [|auto].
  assert (EM : forall i o, fc_mat (k_fact st) 0 i o = entry [[0]; [1]]%nat i o).
  { change (Ok (mkFact 2 2 2 1 1 (fun _ i o => entry [[0]; [1]]%nat i o)) = Ok (k_fact st)) in Ef. injection Ef as <-. reflexivity. }
  assert (S2 : forall i, softmax 2 (fun _ => 0) i = 1/2).
  { intros i. unfold softmax. cbn [bsum]. rewrite exp_0. lra. }
  assert (P1 : forall f c, pr (loglik (ex_leaf 2 2 hard) row01 f c 0%nat) = match f with O => 1 - hard 0 c | S O => hard 1 c | _ => pr (loglik (ex_leaf 2 2 hard) row01 f c 0%nat) end).
  { intros [|[|f]] c; [| |reflexivity]; unfold loglik, ex_leaf; cbn [evalm]; unfold leaf_score; cbn -[bern_lp].
    - apply pr_bern_0. destruct c; cbn; lra.
    - apply pr_bern_1. lra. }
  unfold ein_density, mixed, ein_class, ein_region. cbn [ei_classes ei_reps ei_depth ei_sums ei_topdown ei_type is_linsum ein1_cfg zero_ep ep_mix ep_root ep_lin ep_ein bsum Nat.eqb].
  rewrite !softmax_one. cbn [einode ein_channels Nat.eqb ex_leaf out_shape channels bern l_ch Nat.sub Nat.pow Nat.mul Nat.add bsum repetitions].
  rewrite !S2. unfold group_prob. cbn [scope_of ex_leaf bern l_scope query length seq bprod]. change (bidx 1 0) with 0%nat. rewrite !EM, !P1. cbn. unfold hard. lra.
Qed.
Print Assumptions C193_possible_row_refuted.
