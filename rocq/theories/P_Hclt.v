(** C179-C182: circuits of hidden Chow-Liu trees (spflow.zoo.hclt). *)
From Coq Require Import List Arith ZArith Bool Reals Lia Lra Permutation.
From Verif Require MargProofs.
From Verif Require Import Base ScopeModel ScopeProofs CircuitModel CircuitEval Integral SampleSpec SampleExp CircuitExamples ConvProofs LayerModel LayerSpec LayerProofs
  CltModel CltElim CltTop CltSpec MstModel MstSpec MstUf MstKruskal MstTop HcltMiModel HcltSpec HcltModel HcltTree HcltProofs HcltTop P_Mst P_HcltMi.
Import ListNotations.
Local Open Scope R_scope.

(** [parents] roots the tree [T] over [f] nodes at node 0 *)
Definition roots_at_0 (f : nat) (T : list (nat * nat)) (parents : list Z) : Prop :=
  length parents = f /\ rooted_tree parents 0 /\
  forall v p, (v < f)%nat -> nth v parents (-1)%Z = Z.of_nat p -> In (p, v) T \/ In (v, p) T.
(** draws of torch.rand are non-negative *)
Definition draws_ok (init : hinit) : Prop := match init with Uniform => True | Random rnd => forall v i o, 0 <= rnd v i o end.

Lemma parents_nth par f v : (v < f)%nat -> nth v (map (fun v => if Nat.eqb v 0 then (-1)%Z else Z.of_nat (par v)) (seq 0 f)) (-1)%Z = if Nat.eqb v 0 then (-1)%Z else Z.of_nat (par v).
Proof.
  intros Hv. rewrite nth_indep with (d' := (fun v => if Nat.eqb v 0 then (-1)%Z else Z.of_nat (par v)) 0%nat) by (rewrite map_length, seq_length; exact Hv).
  rewrite (map_nth (fun v => if Nat.eqb v 0 then (-1)%Z else Z.of_nat (par v))). now rewrite seq_nth.
Qed.
Lemma roots f T par dep : (0 < f)%nat -> dep 0%nat = 0%nat ->
  (forall v, (0 < v < f)%nat -> (par v < f)%nat /\ edge T (par v) v /\ dep v = S (dep (par v))) ->
  roots_at_0 f T (map (fun v => if Nat.eqb v 0 then (-1)%Z else Z.of_nat (par v)) (seq 0 f)).
Proof.
  intros Hf D0 HP. set (ps := map _ _). assert (L : length ps = f) by (unfold ps; now rewrite map_length, seq_length).
  split; [exact L|]. split.
  - unfold rooted_tree. rewrite L. split; [exact Hf|]. split; [unfold ps; now rewrite parents_nth|]. split.
    + intros i Hi. unfold ps. rewrite parents_nth by exact Hi. destruct (Nat.eqb_spec i 0) as [->|]; [reflexivity|]. lia.
    + assert (G : forall d i, dep i = d -> (i < f)%nat -> reaches ps 0 i).
      { induction d as [|d IH]; intros i E Hi.
        - rewrite (dep_0 f T Hf par dep D0 HP i Hi E). constructor.
        - assert (0 < i)%nat by (destruct i; [congruence|lia]). destruct (HP i ltac:(lia)) as (Lp & _ & DD). apply (reach_step ps 0 i (par i)); rewrite ?L; try assumption.
          + unfold ps. rewrite parents_nth by exact Hi. now replace (Nat.eqb i 0) with false by (symmetry; apply Nat.eqb_neq; lia).
          + apply IH; [lia|exact Lp]. }
      intros i Hi. now apply (G (dep i)).
  - intros v p Hv. unfold ps. rewrite parents_nth by exact Hv. destruct (Nat.eqb_spec v 0) as [->|N]; [lia|]. intros E. apply Nat2Z.inj in E. subst p. exact (proj1 (proj2 (HP v ltac:(lia)))).
Qed.

(** *** C179: the circuit exists and has the structure of the hidden tree *)
Theorem C179_build : forall f T H em init, tree f T -> (1 <= H)%nat -> draws_ok init ->
  exists m, build_hclt T H em init f = Ok m /\ Permutation (hvars m) (seq 0 f) /\ hch m = 1%nat.
Proof.
  intros f T H em init HT HH HI. pose proof (tree_pos f T HT) as Hf. destruct (orientation f T HT Hf) as (par & dep & D0 & HP & HE).
  eexists. split; [apply (build_ok f T HT par dep D0 HP HE H HH em init HI)|]. split; [|reflexivity]. cbn [hvars]. rewrite hs_vars. now apply (ord_root f T HT par dep D0 HP HE H HH).
Qed.
Theorem C179_checks : forall f T H em init m, build_hclt T H em init f = Ok m ->
  (1 <= H)%nat /\ (length T + 1 = f)%nat /\ forall a b, In (a, b) T -> (a < f)%nat /\ (b < f)%nat /\ a <> b.
Proof.
  intros f T H em init m. unfold build_hclt. destruct (Nat.ltb_spec H 1); [discriminate|]. destruct (Z.eqb_spec (Z.of_nat (length T)) (Z.of_nat f - 1)) as [E|]; [|discriminate]. cbn [negb].
  destruct (edges_ok f T) eqn:EO; [|discriminate]. intros _. split; [exact H0|]. split; [lia|]. intros a b HIn. unfold edges_ok in EO. rewrite forallb_forall in EO. specialize (EO _ HIn). cbn [fst snd] in EO.
  rewrite !andb_true_iff, !Nat.ltb_lt, negb_true_iff, Nat.eqb_neq in EO. tauto.
Qed.

(** The likelihood is that of a latent tree: hidden states with the tree as dependency
    structure, each observed variable depending on its own hidden state only.  This holds
    for the initial parameters and for any values training may give them. *)
Theorem C179_latent_tree : forall f T H em m, tree f T -> (1 <= H)%nat -> build_hclt T H em Uniform f = Ok m ->
  exists parents, roots_at_0 f T parents /\
  forall em' tr x z, pr (hll (with_params em' tr m) x) =
    fsum H (seq 0 f) (fun h => tree_prob parents (fun v a b => softmax H (fun j => tr v j b) a) h * bprod f (fun v => pr (em' v (h v) x))) z.
Proof.
  intros f T H em m HT HH HM. pose proof (tree_pos f T HT) as Hf. destruct (orientation f T HT Hf) as (par & dep & D0 & HP & HE).
  rewrite (build_ok f T HT par dep D0 HP HE H HH em Uniform I) in HM. injection HM as <-.
  exists (map (fun v => if Nat.eqb v 0 then (-1)%Z else Z.of_nat (par v)) (seq 0 f)). split; [now apply (roots f T par dep)|].
  intros em' tr x z. cbn [with_params]. rewrite hs_params. cbn [init_oc]. rewrite (root_value f T HT par dep D0 HP HE H HH em' tr H (or_intror eq_refl) x z).
  apply fsum_ext_lt; [apply seq_NoDup|]. intros y Hy _. rewrite <- bprod_lprod. unfold tree_prob. rewrite map_length, seq_length, <- bprod_mult. apply bprod_ext. intros v Hv. rewrite parents_nth by exact Hv.
  unfold loc, A. f_equal. destruct (Nat.eqb_spec v 0) as [->|N]; [reflexivity|]. replace (Z.eqb (Z.of_nat (par v)) (-1)) with false by (symmetry; apply Z.eqb_neq; lia). rewrite Nat2Z.id.
  rewrite bidx_H; [reflexivity|]. apply Hy. apply in_seq. destruct (HP v ltac:(lia)). lia.
Qed.
(** normalised over exactly the variables 0..f-1, with missing values marginalised, for
    all parameters and both initialisations *)
Theorem C179_normalised : forall f T H em init m D em' tr, tree f T -> (1 <= H)%nat -> draws_ok init -> build_hclt T H em init f = Ok m ->
  (forall v h, (v < f)%nat -> (h < H)%nat -> is_dist D [v] (em' v h)) -> is_dist D (seq 0 f) (hll (with_params em' tr m)).
Proof.
  intros f T H em init m D em' tr HT HH HI HM HD. pose proof (tree_pos f T HT) as Hf. destruct (orientation f T HT Hf) as (par & dep & D0 & HP & HE).
  rewrite (build_ok f T HT par dep D0 HP HE H HH em init HI) in HM. injection HM as <-. cbn [with_params]. rewrite hs_params.
  apply (root_dist f T HT par dep D0 HP HE H HH D em' tr (init_oc H init) (init_oc_ok H init) HD).
Qed.
(** before training: the variables are independent mixtures of their emissions *)
Definition init_param (H : nat) (init : hinit) (v i : nat) : R :=
  match init with
  | Uniform => 1 / INR H
  | Random rnd => (rnd v i 0%nat + / 10 ^ 8) / bsum H (fun j => rnd v j 0%nat + / 10 ^ 8)
  end.
Lemma init_softmax H init v o i : (1 <= H)%nat -> draws_ok init -> (i < H)%nat -> softmax H (fun j => init_logits H init v j o) i = init_param H init v i.
Proof.
  intros HH HI Hi. destruct init as [|rnd]; cbn [init_logits init_param].
  - apply (MargProofs.softmax_ln H (fun _ => 1 / INR H)); [exact Hi|intros; apply Rdiv_lt_0_compat; [lra|apply lt_0_INR; lia]|now apply uniform_sum].
  - destruct (raw_sum H (rnd v) HH (HI v)) as (P & Z & S1). apply (MargProofs.softmax_ln H (fun j => raw (rnd v) j / bsum H (raw (rnd v)))); [exact Hi| |exact S1].
    intros; apply Rdiv_lt_0_compat; [apply P|exact Z].
Qed.
Lemma independent f T H em tr oc par dep x (HT : tree f T) (D0 : dep 0%nat = 0%nat)
  (HP : forall v, (0 < v < f)%nat -> (par v < f)%nat /\ edge T (par v) v /\ dep v = S (dep (par v)))
  (HE : forall u v, edge T u v -> ((0 < u)%nat /\ par u = v) \/ ((0 < v)%nat /\ par v = u)) q : (1 <= H)%nat -> (oc = 1 \/ oc = H)%nat ->
  (forall v i o, (v < f)%nat -> (i < H)%nat -> (o < oc)%nat -> softmax H (fun j => tr v j o) i = q v i) ->
  pr (hll (HSum 0 1 (tr 0%nat) (hs T H em tr oc f 0 None)) x) = bprod f (fun v => bsum H (fun h => q v h * pr (em v h x))).
Proof.
  intros HH HO HQ. rewrite (root_value f T HT par dep D0 HP HE H HH em tr oc HO x (fun _ => 0%nat)).
  rewrite (fsum_ext_lt H (seq 0 f) _ (fun y => lprod (seq 0 f) (fun v => q v (y v) * pr (em v (y v) x)))).
  - rewrite (fsum_indep H (fun v k => q v k * pr (em v k x)) (seq 0 f) (seq_NoDup f 0)). now rewrite <- bprod_lprod.
  - apply seq_NoDup.
  - intros y Hy _. apply lprod_ext. intros v Hv. unfold loc. f_equal. unfold A. pose proof (Hy v Hv) as Lv. apply in_seq in Hv. apply HQ; [lia|exact Lv|].
    destruct (Nat.eqb_spec v 0) as [->|N]; [lia|]. destruct HO as [-> | ->]; [cbn; lia|].
    assert (y (par v) < H)%nat by (apply Hy, in_seq; destruct (HP v ltac:(lia)); lia). now rewrite bidx_H.
Qed.
Theorem C179_initial : forall f T H em init m x, tree f T -> (1 <= H)%nat -> draws_ok init -> build_hclt T H em init f = Ok m ->
  pr (hll m x) = bprod f (fun v => bsum H (fun h => init_param H init v h * pr (em v h x))).
Proof.
  intros f T H em init m x HT HH HI HM. pose proof (tree_pos f T HT) as Hf. destruct (orientation f T HT Hf) as (par & dep & D0 & HP & HE).
  rewrite (build_ok f T HT par dep D0 HP HE H HH em init HI) in HM. injection HM as <-.
  apply (independent f T H em (init_logits H init) (init_oc H init) par dep x HT D0 HP HE (init_param H init) HH (init_oc_ok H init)).
  intros v i o _ Hi _. now apply init_softmax.
Qed.

(** *** C180: init="random".  The sums between hidden states get one output channel, which
    ElementwiseProduct broadcasts over the states of the parent: whatever the parameters
    become, the variables stay independent.  The learner's promise of a circuit in which
    neighbours in the tree may depend on each other is false. *)
Theorem C180_random_init_refuted : forall f T H em rnd m, tree f T -> (1 <= H)%nat -> draws_ok (Random rnd) -> build_hclt T H em (Random rnd) f = Ok m ->
  forall em' tr x, pr (hll (with_params em' tr m) x) = bprod f (fun v => bsum H (fun h => softmax H (fun j => tr v j 0%nat) h * pr (em' v h x))).
Proof.
  intros f T H em rnd m HT HH HI HM em' tr x. pose proof (tree_pos f T HT) as Hf. destruct (orientation f T HT Hf) as (par & dep & D0 & HP & HE).
  rewrite (build_ok f T HT par dep D0 HP HE H HH em (Random rnd) HI) in HM. injection HM as <-. cbn [with_params]. rewrite hs_params. cbn [init_oc].
  apply (independent f T H em' tr 1 par dep x HT D0 HP HE (fun v h => softmax H (fun j => tr v j 0%nat) h) HH (or_introl eq_refl)).
  intros v i o _ _ Ho. now replace o with 0%nat by lia.
Qed.

(** *** C181: the learners *)
Lemma mapR_all {A B} (g : A -> result B) l bs : mapR g l = Ok bs -> Forall2 (fun a b => g a = Ok b) l bs.
Proof.
  revert bs. induction l as [|a l IH]; intros bs E; cbn [mapR] in E; [injection E as <-; constructor|]. destruct (g a) as [b|] eqn:Eb; [|discriminate]. cbn [bind] in E.
  destruct (mapR g l) as [cs|]; [|discriminate]. cbn [bind] in E. injection E as <-. constructor; [exact Eb|now apply IH].
Qed.
Lemma mapR_total {A B} (g : A -> result B) l : (forall a, In a l -> exists b, g a = Ok b) -> exists bs, mapR g l = Ok bs.
Proof.
  induction l as [|a l IH]; intros HG; [now exists []|]. destruct (HG a (or_introl eq_refl)) as (b & Eb). destruct IH as (bs & E); [intros; apply HG; now right|]. exists (b :: bs). cbn [mapR]. now rewrite Eb, E.
Qed.
(** the components, one per tree *)
Definition components (f H : nat) (em : nat -> nat -> nat -> row -> lval) (init : nat -> hinit) (trees : list (list (nat * nat))) (ms : list hmod) : Prop :=
  length ms = length trees /\ forall t d, (t < length trees)%nat -> build_hclt (nth t trees []) H (em t) (init t) f = Ok (nth t ms d).
Lemma hclts_of_ok f H em init trees : Forall (tree f) trees -> (1 <= H)%nat -> (forall t, draws_ok (init t)) -> exists ms, hclts_of f H em init trees = Ok ms /\ components f H em init trees ms.
Proof.
  intros HT HH HI. unfold hclts_of. destruct (mapR_total (fun t => build_hclt (nth t trees []) H (em t) (init t) f) (seq 0 (length trees))) as (ms & E).
  - intros t Ht. apply in_seq in Ht. rewrite Forall_forall in HT. destruct (C179_build f (nth t trees []) H (em t) (init t)) as (m & EM & _); [apply HT, nth_In; lia|exact HH|apply HI|]. now exists m.
  - exists ms. split; [exact E|]. apply mapR_all in E. assert (L : length ms = length trees) by (rewrite <- (seq_length (length trees) 0); symmetry; clear -E; induction E; cbn; congruence).
    split; [exact L|]. intros t d Ht. assert (G : forall n s, Forall2 (fun a b => build_hclt (nth a trees []) H (em a) (init a) f = Ok b) (seq s n) ms -> (t < n)%nat -> build_hclt (nth (s + t) trees []) H (em (s + t)%nat) (init (s + t)%nat) f = Ok (nth t ms d)).
    { clear. revert t. induction ms as [|m ms IH]; intros t n s F Hn; (destruct n as [|n]; [lia|]); inversion F; subst. destruct t as [|t]; [now rewrite Nat.add_0_r|]. replace (s + S t)%nat with (S s + t)%nat by lia. cbn [nth]. apply (IH t n (S s)); [assumption|lia]. }
    specialize (G (length trees) 0%nat E Ht). exact G.
Qed.
Lemma Ok_inj {A} (a b : A) : Ok a = Ok b -> a = b.
Proof. congruence. Qed.
(** the mixture weights *)
Definition mix_param (k : nat) (init : hinit) (rnd : nat -> R) (t : nat) : R :=
  match init with Uniform => 1 / INR k | Random _ => (rnd t + / 10 ^ 8) / bsum k (fun j => rnd j + / 10 ^ 8) end.
Lemma mix_param_ok k init rnd : (1 <= k)%nat -> (forall t, 0 <= rnd t) -> (forall t, 0 < mix_param k init rnd t) /\ bsum k (mix_param k init rnd) = 1.
Proof.
  intros Hk HR. destruct init as [|r0]; cbn [mix_param].
  - split; [intros; apply Rdiv_lt_0_compat; [lra|apply lt_0_INR; lia]|now apply uniform_sum].
  - destruct (raw_sum k (fun t _ => rnd t) Hk (fun t _ => HR t)) as (P & Z & S1). unfold raw in *. split; [|exact S1]. intros t. apply Rdiv_lt_0_compat; [apply P|exact Z].
Qed.
Lemma mix_ok f H em init rnd trees ms : (0 < length trees)%nat -> Forall (tree f) trees -> (1 <= H)%nat -> (forall t, draws_ok (init t)) -> (forall t, 0 <= rnd t) -> components f H em init trees ms ->
  exists m, mix_hclts (init 0%nat) rnd ms = Ok m /\ (m = nth 0 ms m /\ length trees = 1%nat \/ exists lg, m = HMix lg ms /\ forall t, (t < length ms)%nat -> softmax (length ms) lg t = mix_param (length ms) (init 0%nat) rnd t).
Proof.
  intros NE HT HH HI HR [HL HC]. destruct ms as [|m0 ms]; [cbn in HL; lia|]. destruct ms as [|m1 ms]; [exists m0; split; [reflexivity|left; split; [reflexivity|cbn in HL; lia]]|].
  set (l := m0 :: m1 :: ms) in *. assert (SV : forall m, In m l -> Permutation (hvars m) (seq 0 f)).
  { intros m Hm. destruct (In_nth l m m0 Hm) as (t & Ht & EQ). rewrite Forall_forall in HT. destruct (C179_build f (nth t trees []) H (em t) (init t)) as (m' & EM & PV & _); [apply HT, nth_In; lia|exact HH|apply HI|].
    assert (EM' : Ok (nth t l m0) = Ok m') by (rewrite <- EM; symmetry; apply HC; lia). apply Ok_inj in EM'. rewrite <- EQ, EM'. exact PV. }
  destruct (mix_param_ok (length l) (init 0%nat) rnd ltac:(cbn; lia) HR) as [P S1].
  exists (HMix (fun i => ln (mix_param (length l) (init 0%nat) rnd i)) l). split.
  - change (mix_hclts (init 0%nat) rnd l) with (if negb (forallb (fun m => set_eqb (hvars m0) (hvars m)) l) then Err else
      if negb (allb (length l) (fun i => rlt 0 (match init 0%nat with Uniform => fun _ => 1 / INR (length l) | Random _ => fun i => (rnd i + / 10 ^ 8) / bsum (length l) (fun i => rnd i + / 10 ^ 8) end i))) then Err else
      if negb (close1 (bsum (length l) (match init 0%nat with Uniform => fun _ => 1 / INR (length l) | Random _ => fun i => (rnd i + / 10 ^ 8) / bsum (length l) (fun i => rnd i + / 10 ^ 8) end))) then Err else
      Ok (HMix (fun i => ln (match init 0%nat with Uniform => fun _ => 1 / INR (length l) | Random _ => fun i => (rnd i + / 10 ^ 8) / bsum (length l) (fun i => rnd i + / 10 ^ 8) end i)) l)).
    replace (forallb _ l) with true.
    2:{ symmetry. apply forallb_forall. intros m Hm. apply set_eqb_spec. intros v. split; intros Hv; (eapply Permutation_in; [|exact Hv]); (eapply Permutation_trans; [apply SV|apply Permutation_sym, SV]); try exact Hm; now left. }
    cbn [negb]. assert (EW : forall i, (match init 0%nat with Uniform => fun _ => 1 / INR (length l) | Random _ => fun i => (rnd i + / 10 ^ 8) / bsum (length l) (fun i => rnd i + / 10 ^ 8) end) i = mix_param (length l) (init 0%nat) rnd i) by (intros; unfold mix_param; now destruct (init 0%nat)).
    rewrite allb_intro by (intros i _; rewrite EW; apply rlt_pos, P). cbn [negb].
    rewrite (bsum_ext (length l) _ (mix_param (length l) (init 0%nat) rnd)) by (intros; apply EW). rewrite S1, MargProofs.close1_1. cbn [negb]. unfold mix_param. destruct (init 0%nat); reflexivity.
  - right. eexists. split; [reflexivity|]. intros t Ht. apply (MargProofs.softmax_ln (length l) (mix_param (length l) (init 0%nat) rnd)); [exact Ht|intros; apply P|exact S1].
Qed.
Lemma topk_trees f w k d masks trees : 0 <= d < 1 -> topk_mst f f (fun i j => Some (w i j)) k d masks true = Ok trees -> (0 < length trees <= k)%nat /\ Forall (tree f) trees.
Proof.
  intros HD E. destruct (C53_topk_checks _ _ _ _ _ _ _ _ E) as (Hk & _ & Hf & _). destruct (C170_dropout_trees f (fun i j => Some (w i j)) w k d masks) as (out & EO & HL & HT & _); try assumption; [intros i j _ _; reflexivity|].
  rewrite E in EO. injection EO as <-. split; assumption.
Qed.
Lemma binary_trees f data k d weights pc masks trees : 0 <= d < 1 -> learn_chow_liu_trees_binary f data k d weights pc masks = Ok trees -> (0 < length trees <= k)%nat /\ Forall (tree f) trees.
Proof.
  intros HD. unfold learn_chow_liu_trees_binary. destruct (Nat.eqb k 0); [discriminate|]. destruct (rlt0 pc); [discriminate|]. destruct (pairwise_mi_binary data weights pc eps_default) as [mi|]; [|discriminate]. cbn [bind].
  intros E. exact (topk_trees f (fun i j => - mi i j) k d masks trees HD E).
Qed.
Lemma categorical_trees f data nc k d weights pc chunk masks trees : 0 <= d < 1 -> learn_chow_liu_trees_categorical f data nc k d weights pc chunk masks = Ok trees -> (0 < length trees <= k)%nat /\ Forall (tree f) trees.
Proof.
  intros HD. unfold learn_chow_liu_trees_categorical. destruct (Nat.eqb k 0); [discriminate|]. destruct (rlt0 pc); [discriminate|]. destruct (pairwise_mi_categorical f data nc weights pc eps_default chunk) as [mi|]; [|discriminate]. cbn [bind].
  intros E. exact (topk_trees f (fun i j => - mi i j) k d masks trees HD E).
Qed.

(** what the learners return for the trees found: the mixture of the tree circuits *)
Definition mixture_of (f H : nat) (em : nat -> nat -> nat -> row -> lval) (init : nat -> hinit) (rnd : nat -> R) (trees : list (list (nat * nat))) (m : hmod) : Prop :=
  exists ms, components f H em init trees ms /\
    forall x, pr (hll m x) = bsum (length ms) (fun t => mix_param (length ms) (init 0%nat) rnd t * pr (hll (nth t ms m) x)).
Lemma mixture_built f H em init rnd trees : (0 < length trees)%nat -> Forall (tree f) trees -> (1 <= H)%nat -> (forall t, draws_ok (init t)) -> (forall t, 0 <= rnd t) ->
  exists m, bind (hclts_of f H em init trees) (mix_hclts (init 0%nat) rnd) = Ok m /\ mixture_of f H em init rnd trees m.
Proof.
  intros NE HT HH HI HR. destruct (hclts_of_ok f H em init trees HT HH HI) as (ms & EM & HC). destruct (mix_ok f H em init rnd trees ms NE HT HH HI HR HC) as (m & EX & HM).
  exists m. rewrite EM. cbn [bind]. split; [exact EX|]. exists ms. split; [exact HC|]. intros x. destruct HM as [[E1 L1]|(lg & -> & HS)].
  - destruct HC as [HL _]. rewrite L1 in HL. rewrite HL. cbn [bsum]. rewrite <- E1. assert (mix_param 1 (init 0%nat) rnd 0 = 1) as ->; [|ring].
    destruct (mix_param_ok 1 (init 0%nat) rnd (le_n 1) HR) as [_ S1]. cbn [bsum] in S1. lra.
  - unfold hll. cbn [hten t_ll]. rewrite pr_lse. destruct HC as [HL _]. apply bsum_ext. intros t Ht. rewrite pr_ladd. cbn [pr]. rewrite exp_log_softmax by lia. rewrite HS by exact Ht. rewrite Rmult_comm. f_equal.
    change NInf with ((fun _ : nat => NInf) 0%nat). rewrite nth_indep with (d' := (fun m => t_ll (hten m x) 0 0 0) (HMix lg ms)) by (rewrite map_length; exact Ht). now rewrite (map_nth (fun m => t_ll (hten m x) 0 0 0)).
Qed.
Theorem C181_binary : forall f data H k d weights pc masks em init rnd trees,
  (forall r i, In r data -> (i < f)%nat -> r i <> None) -> (1 <= H)%nat -> 0 <= d < 1 -> (forall t, draws_ok (init t)) -> (forall t, 0 <= rnd t) ->
  learn_chow_liu_trees_binary f data k d weights pc masks = Ok trees ->
  (0 < length trees <= k)%nat /\ Forall (tree f) trees /\
  exists m, learn_hclt_binary f data H k d weights pc masks em init rnd = Ok m /\ mixture_of f H em init rnd trees m.
Proof.
  intros f data H k d weights pc masks em init rnd trees HC HH HD HI HR ET. destruct (binary_trees _ _ _ _ _ _ _ _ HD ET) as [HL HT]. split; [exact HL|]. split; [exact HT|].
  unfold learn_hclt_binary. replace (complete_rows f data) with true.
  - cbn [negb]. rewrite ET. cbn [bind]. apply mixture_built; try assumption. lia.
  - symmetry. apply forallb_forall. intros r Hr. apply forallb_forall. intros i Hi. apply in_seq in Hi. specialize (HC r i Hr ltac:(lia)). destruct (r i); congruence.
Qed.
Theorem C181_binary_rejects_nan : forall f data H k d weights pc masks em init rnd r i, In r data -> (i < f)%nat -> r i = None ->
  learn_hclt_binary f data H k d weights pc masks em init rnd = Err.
Proof.
  intros f data H k d weights pc masks em init rnd r i Hr Hi EN. unfold learn_hclt_binary. destruct (complete_rows f data) eqn:EC; [|reflexivity]. exfalso.
  unfold complete_rows in EC. rewrite forallb_forall in EC. specialize (EC r Hr). rewrite forallb_forall in EC. specialize (EC i ltac:(apply in_seq; lia)). now rewrite EN in EC.
Qed.
Theorem C181_categorical : forall f data H nc k d weights pc chunk masks em init rnd trees,
  (forall r i, In r data -> (i < f)%nat -> r i <> None) -> (1 <= H)%nat -> 0 <= d < 1 -> (forall t, draws_ok (init t)) -> (forall t, 0 <= rnd t) ->
  (0 < infer_cats f data nc)%nat -> learn_chow_liu_trees_categorical f data (Some (infer_cats f data nc)) k d weights pc chunk masks = Ok trees ->
  (0 < length trees <= k)%nat /\ Forall (tree f) trees /\
  exists m, learn_hclt_categorical f data H nc k d weights pc chunk masks em init rnd = Ok m /\ mixture_of f H em init rnd trees m.
Proof.
  intros f data H nc k d weights pc chunk masks em init rnd trees HC HH HD HI HR HK ET. destruct (categorical_trees _ _ _ _ _ _ _ _ _ _ HD ET) as [HL HT]. split; [exact HL|]. split; [exact HT|].
  unfold learn_hclt_categorical. replace (complete f data) with true.
  - cbn [negb]. replace (Nat.eqb (infer_cats f data nc) 0) with false by (symmetry; apply Nat.eqb_neq; lia). rewrite ET. cbn [bind]. apply mixture_built; try assumption. lia.
  - symmetry. apply forallb_forall. intros r Hr. apply forallb_forall. intros i Hi. apply in_seq in Hi. specialize (HC r i Hr ltac:(lia)). destruct (r i); congruence.
Qed.
(** with complete data, weights and pseudocount as usual: the mixture is over the trees of
    largest total mutual information *)
Theorem C181_best_trees : forall f data weights ws pc H k masks em init rnd, weights_are (length data) weights ws -> nonneg_weights ws -> 0 <= pc -> 0 < lsumR ws + pc ->
  (0 < f)%nat -> (0 < k)%nat -> let dd := bin_rows data ws in not_rare dd pc eps_default 2 f -> product_not_rare dd pc eps_default 2 f ->
  (forall r i, In r data -> (i < f)%nat -> r i <> None) -> (1 <= H)%nat -> (forall t, draws_ok (init t)) -> (forall t, 0 <= rnd t) ->
  exists trees m, best_trees f k (fun i j => mutual_information 2 (freq2 dd pc 2 i j)) trees /\
    learn_hclt_binary f data H k 0 weights pc masks em init rnd = Ok m /\ mixture_of f H em init rnd trees m.
Proof.
  intros f data weights ws pc H k masks em init rnd WA NW Hpc HZ Hf Hk dd NR NP HC HH HI HR.
  destruct (C178_chow_liu_binary f data weights ws pc k masks WA NW Hpc HZ Hf Hk NR NP) as (trees & ET & HB & _).
  destruct (C181_binary f data H k 0 weights pc masks em init rnd trees HC HH ltac:(lra) HI HR ET) as (_ & _ & m & EM & HM). exists trees, m. split; [exact HB|]. split; [exact EM|exact HM].
Qed.
(** normalised, whatever training does to the components and the mixture weights *)
Theorem C181_normalised : forall f H em init trees ms lg D em' tr, (0 < length trees)%nat -> Forall (tree f) trees -> (1 <= H)%nat -> (forall t, draws_ok (init t)) ->
  components f H em init trees ms -> (forall t v h, (v < f)%nat -> (h < H)%nat -> is_dist D [v] (em' t v h)) ->
  is_dist D (seq 0 f) (hll (HMix lg (map (fun t => with_params (em' t) (tr t) (nth t ms (HMix lg ms))) (seq 0 (length ms))))).
Proof.
  intros f H em init trees ms lg D em' tr NE HT HH HI [HL HC] HD. set (l := map _ _). assert (LL : length l = length ms) by (unfold l; now rewrite map_length, seq_length).
  apply is_dist_ext with (g := fun x => lfrom (bsum (length ms) (fun t => softmax (length ms) lg t * pr (hll (with_params (em' t) (tr t) (nth t ms (HMix lg ms))) x)))).
  - intros x. unfold hll. cbn [hten t_ll]. rewrite LL. unfold lse. f_equal. apply bsum_ext. intros t Ht. rewrite pr_ladd. cbn [pr]. rewrite exp_log_softmax by lia. rewrite Rmult_comm. f_equal.
    rewrite nth_indep with (d' := (fun m => t_ll (hten m x) 0 0 0) (with_params (em' 0%nat) (tr 0%nat) (nth 0 ms (HMix lg ms)))) by (rewrite map_length, LL; exact Ht).
    rewrite (map_nth (fun m => t_ll (hten m x) 0 0 0)). unfold l. rewrite (map_nth (fun t => with_params (em' t) (tr t) (nth t ms (HMix lg ms)))). now rewrite seq_nth.
  - apply (dist_mix D (seq 0 f) (length ms) (softmax (length ms) lg) (fun t => hll (with_params (em' t) (tr t) (nth t ms (HMix lg ms))))); [|apply softmax_sum; lia|].
    + intros t Ht. left. apply softmax_pos. lia.
    + intros t Ht. rewrite Forall_forall in HT. apply (C179_normalised f (nth t trees []) H (em t) (init t)); [apply HT, nth_In; lia|exact HH|apply HI|apply HC; lia|apply HD].
Qed.

(** *** Non-vacuity *)
Definition em01 (v h : nat) (x : row) : lval := match x v with None => Fin 0 | Some a => bern_lp (if Nat.eqb h 0 then 0 else 1) a end.
Lemma tree2 : tree 2 [(0, 1)%nat].
Proof.
  split; [|intros u v [E|[]]; injection E as <- <-; lia]. split; [intros u v [E|[]]; injection E as <- <-; lia|]. split; [|reflexivity].
  assert (A01 : linked [(0, 1)%nat] 0 1) by (eapply l_step; [apply l_refl|left; now left]).
  assert (A10 : linked [(0, 1)%nat] 1 0) by (eapply l_step; [apply l_refl|right; now left]).
  intros u v Hu Hv. destruct u as [|[|]], v as [|[|]]; try lia; try assumption; apply l_refl.
Qed.
(** with uniform initialisation and two states the circuit can represent dependence: some
    parameters give P(0,0) = 3/8 although P(0,_) = P(_,0) = 1/2 *)
Example C180_uniform_differs : exists m tr, build_hclt [(0, 1)%nat] 2 em01 Uniform 2 = Ok m /\
  let P a b := pr (hll (with_params em01 tr m) (fun v => if Nat.eqb v 0 then a else b)) in
  P (Some 0) (Some 0) = 3 / 8 /\ P (Some 0) None = 1 / 2 /\ P None (Some 0) = 1 / 2.
Proof.
  destruct (C179_build 2 [(0, 1)%nat] 2 em01 Uniform tree2 ltac:(lia) I) as (m & EM & _). exists m, (fun v i o => if Nat.eqb v 0 then 0 else if Nat.eqb i o then ln 3 else 0).
  split; [exact EM|]. destruct (C179_latent_tree 2 [(0, 1)%nat] 2 em01 m tree2 ltac:(lia) EM) as (ps & (L & (_ & R0 & R1 & RR) & HE) & HF).
  assert (EP : ps = [(-1)%Z; 0%Z]).
  { destruct ps as [|a [|b [|]]]; try discriminate L. cbn in R0. subst a. do 2 f_equal. specialize (RR 1%nat ltac:(cbn; lia)). inversion RR as [|i p Hi Hp EN HRc]; subst. cbn in EN. subst b.
    assert (p = 0)%nat as ->; [|reflexivity]. destruct (HE 1%nat p ltac:(lia) eq_refl) as [[E|[]]|[E|[]]]; injection E; intros; subst; [reflexivity|discriminate]. }
  subst ps. cbv beta zeta. rewrite !(HF _ _ _ (fun _ => 0%nat)).
  assert (S0 : forall i, (i < 2)%nat -> softmax 2 (fun _ => 0) i = 1 / 2).
  { intros i Hi. cbn [Nat.eqb]. unfold softmax. cbn [bsum]. rewrite exp_0. field. }
  assert (E3 : exp (ln 3) = 3) by (apply exp_ln; lra).
  assert (S1 : forall i b, (i < 2)%nat -> (b < 2)%nat -> softmax 2 (fun j => if Nat.eqb j b then ln 3 else 0) i = if Nat.eqb i b then 3 / 4 else 1 / 4).
  { intros i b Hi Hb. cbn [Nat.eqb]. unfold softmax. destruct i as [|[|]], b as [|[|]]; try lia; cbn [bsum Nat.eqb]; rewrite ?E3, ?exp_0; field. }
  assert (EV : forall v h (x : row), (h < 2)%nat -> x v = Some 0 -> pr (em01 v h x) = if Nat.eqb h 0 then 1 else 0).
  { intros v h x Hh EX. unfold em01. rewrite EX. rewrite pr_bern_0 by (destruct (Nat.eqb h 0); lra). destruct (Nat.eqb h 0); lra. }
  assert (EN : forall v h (x : row), x v = None -> pr (em01 v h x) = 1) by (intros v h x EX; unfold em01; rewrite EX; apply pr_Fin0).
  cbn [seq fsum]. unfold tree_prob. cbn [length bprod bsum nth Z.eqb]. unfold fupd. cbn [Nat.eqb Z.to_nat]. rewrite !S0, !S1 by lia. cbn [Nat.eqb].
  split; [|split].
  - rewrite !EV by (try lia; reflexivity). cbn [Nat.eqb Pos.eqb]. lra.
  - rewrite !(EV 0%nat) by (try lia; reflexivity). rewrite !(EN 1%nat) by reflexivity. cbn [Nat.eqb Pos.eqb]. lra.
  - rewrite !(EV 1%nat) by (try lia; reflexivity). rewrite !(EN 0%nat) by reflexivity. cbn [Nat.eqb Pos.eqb]. lra.
Qed.

Lemma em01_dist v h : is_dist (fun _ => bits) [v] (em01 v h).
Proof.
  constructor.
  - intros x y E. unfold em01. now rewrite (E v (or_introl eq_refl)).
  - intros w x [<-|[]]. cbn. unfold em01. rewrite !upd_same, pr_Fin0. rewrite pr_bern_0, pr_bern_1 by (destruct (Nat.eqb h 0); lra). lra.
  - intros x E. unfold em01. now rewrite (E v (or_introl eq_refl)).
Qed.
Example C179_ex : exists m, build_hclt [(0, 1)%nat] 2 em01 Uniform 2 = Ok m /\ forall tr, is_dist (fun _ => bits) (seq 0 2) (hll (with_params em01 tr m)).
Proof.
  destruct (C179_build 2 [(0, 1)%nat] 2 em01 Uniform tree2 ltac:(lia) I) as (m & EM & _). exists m. split; [exact EM|]. intros tr.
  apply (C179_normalised 2 [(0, 1)%nat] 2 em01 Uniform m); [apply tree2|lia|exact I|exact EM|]. intros; apply em01_dist.
Qed.
Example C181_ex : exists trees m, (0 < length trees <= 2)%nat /\ learn_hclt_binary 3 ex_rows 2 2 0 None 1 (fun _ _ _ => false) (fun _ => em01) (fun _ => Uniform) (fun _ => 0) = Ok m /\
  mixture_of 3 2 (fun _ => em01) (fun _ => Uniform) (fun _ => 0) trees m.
Proof.
  destruct (unweighted_binary_guards ex_rows 1 3) as [NR NP]; [right; lra|cbn; lra|].
  destruct (C181_best_trees 3 ex_rows None (repeat 1 3) 1 2 2 (fun _ _ _ => false) (fun _ => em01) (fun _ => Uniform) (fun _ => 0)) as (trees & m & (HL & _) & EM & HM); try lra; try lia; try (intros; lra);
    [left; split; reflexivity|apply ones_nonneg|cbn; lra|exact NR|exact NP| |intros; exact I|].
  - intros r i [<-|[<-|[<-|[]]]] _; try discriminate. destruct (Nat.eqb i 0); discriminate.
  - exists trees, m. split; [exact HL|]. split; [exact EM|exact HM].
Qed.
Example C180_ex : exists m, build_hclt [(0, 1)%nat] 2 em01 (Random (fun _ _ _ => 1 / 2)) 2 = Ok m.
Proof. destruct (C179_build 2 [(0, 1)%nat] 2 em01 (Random (fun _ _ _ => 1 / 2)) tree2 ltac:(lia)) as (m & EM & _); [cbn; intros; lra|now exists m]. Qed.
Print Assumptions C179_build.
Print Assumptions C179_checks.
Print Assumptions C179_latent_tree.
Print Assumptions C179_normalised.
Print Assumptions C179_initial.
Print Assumptions C180_random_init_refuted.
Print Assumptions C181_binary.
Print Assumptions C181_binary_rejects_nan.
Print Assumptions C181_categorical.
Print Assumptions C181_best_trees.
Print Assumptions C181_normalised.
