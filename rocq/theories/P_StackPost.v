(** Class posteriors of RatSPN and Einet. *)
From Coq Require Import List Arith Bool Reals Lia Lra Permutation.
From Verif Require Import Base ScopeModel ScopeProofs CircuitModel CircuitSpec CircuitBasics CircuitEval Integral CircuitMarg CircuitProps
  CircuitExamples SampleModel SampleExp EmModel SplitModel SplitProofs LayerModel LayerSpec LayerProofs FactorModel FactorProofs FactorTop PosteriorModel PosteriorProofs
  StackModel StackSpec StackProofs StackDist StackTop StackRat StackNan StackRatTop StackEinSpec StackEin StackEinTop
  StackPostModel StackPostSpec StackPost StackPostTop P_Rat P_Einet.
Import ListNotations.
Local Open Scope R_scope.

Lemma bayes_sum n (a b : nat -> R) Z : Z = bsum n (fun q => a q * b q) -> 0 < Z -> bsum n (fun q => a q * b q / Z) = 1.
Proof.
  intros E P. transitivity (bsum n (fun q => a q * b q) / Z); [|rewrite <- E; field; lra].
  unfold Rdiv. symmetry. rewrite Rmult_comm, <- bsum_scal. apply bsum_ext. intros. ring.
Qed.
Lemma oargmax_first n (p : nat -> R) : (0 < n)%nat ->
  (oargmax n (fun c => Some (p c)) < n)%nat /\ (forall c, (c < n)%nat -> p c <= p (oargmax n (fun c => Some (p c)))) /\
  forall c, (c < oargmax n (fun c => Some (p c)))%nat -> p c < p (oargmax n (fun c => Some (p c))).
Proof.
  intros Hn. destruct (oargmax_max n p Hn) as [A B]. split; [exact A|]. split; [exact B|].
  clear A B. induction n as [|k IH]; [lia|]. cbn [oargmax]. destruct (Nat.eqb_spec k 0) as [->|N]; [intros c Hc; lia|].
  destruct (Rlt_dec _ _) as [L|L]; [|apply IH; lia]. intros c Hc. pose proof (proj2 (oargmax_max k p ltac:(lia)) c Hc). lra.
Qed.
(** from the log-posterior to probabilities and the predicted class *)
Lemma post_predict n k x lp (post : nat -> R) : (0 < n)%nat -> stack_log_posterior n k x = Ok lp ->
  (forall q, (q < n)%nat -> exists v, lp q = Some v /\ pr v = post q) ->
  exists pp, stack_predict_proba n k x = Ok pp /\ (forall q, (q < n)%nat -> pp q = Some (post q)) /\
  exists b, stack_predict n k x = Ok b /\ (b < n)%nat /\ (forall q, (q < n)%nat -> post q <= post b) /\ forall q, (q < b)%nat -> post q < post b.
Proof.
  intros Hn E H. unfold stack_predict, stack_predict_proba. rewrite E. cbn [bind]. eexists. split; [reflexivity|].
  assert (V : forall q, (q < n)%nat -> option_map pr (lp q) = Some (post q)).
  { intros q Hq. destruct (H q Hq) as (v & -> & <-). reflexivity. }
  split; [exact V|]. eexists. split; [reflexivity|]. rewrite (oargmax_ext n _ (fun q => Some (post q))) by exact V.
  destruct (oargmax_first n post Hn) as (A & B & C). auto.
Qed.

(** ** C194: with two or more root nodes, the posterior of a RatSPN is Bayes' rule applied to
    its root weights and its class densities, it sums to one, and the prediction is the
    first class of greatest posterior *)
Theorem C194_rat_posterior : forall leaves c p d k m s st,
  leaves_ok leaves m s (ra_reps c) -> (1 <= ra_reps c)%nat -> rat_mode c = Ok (k, 2%nat) -> k <> ByIndex ->
  mk_rat leaves c p d = Ok st ->
  exists grp, (draw_ok (length (query (scope_of m))) (ra_depth c) d -> partitions (length (query (scope_of m))) (ra_reps c) (2 ^ ra_depth c) grp) /\
  forall x, (forall f ch r, in_shape s f ch r -> loglik m x f ch r <> NInf) ->
  (2 <= ra_root c)%nat ->
  let post q := rat_prior c p q * rat_class c p k m s grp x q / rat_density c p k m s grp x in
  rat_density c p k m s grp x = bsum (ra_root c) (fun q => rat_prior c p q * rat_class c p k m s grp x q) /\
  bsum (ra_root c) post = 1 /\
  exists lp pp b, stack_log_posterior (ra_root c) st x = Ok lp /\ stack_predict_proba (ra_root c) st x = Ok pp /\ stack_predict (ra_root c) st x = Ok b /\
    (forall q, (q < ra_root c)%nat -> lp q = Some (Fin (ln (post q))) /\ pp q = Some (post q)) /\
    (b < ra_root c)%nat /\ (forall q, (q < ra_root c)%nat -> post q <= post b) /\ forall q, (q < b)%nat -> post q < post b.
Proof.
  intros leaves c p d k m s st HL HR Hm Hk E. destruct (rat_ok_fine _ _ _ _ _ _ _ _ HL HR Hm Hk E) as [HF H3].
  exists (fc_mat (k_fact st)). split.
  - intros [Hs Hp]. destruct (rat_built leaves c p d k m s HL Hm Hk HR HF H3) as (st' & E' & _ & Ef & _). rewrite E in E'. injection E' as <-.
    intros r i Hr Hi. destruct (owner_exists _ _ _ _ _ _ _ _ Hs Hp Ef r i Hi) as (g & Hg & Eg).
    exists g. split; [exact Hg|]. split; [exact Eg|]. intros h Eh. exact (owner_unique _ _ _ _ _ _ _ _ Hs Hp Ef r i h g Eh Eg).
  - intros x Hx Hn post. destruct (rat_post leaves c p d k m s st HL Hm Hk HR HF H3 E Hn x Hx) as (A & B & lp & E1 & E2).
    assert (ED : rat_density c p k m s (fc_mat (k_fact st)) x = bsum (ra_root c) (fun q => rat_prior c p q * rat_class c p k m s (fc_mat (k_fact st)) x q)) by reflexivity.
    split; [exact ED|]. split; [exact (bayes_sum _ _ _ _ ED B)|].
    destruct (post_predict (ra_root c) st x lp post ltac:(lia) E1 E2) as (pp & P1 & P2 & b & P3 & P4 & P5 & P6).
    exists lp, pp, b. split; [exact E1|]. split; [exact P1|]. split; [exact P3|]. split; [|auto].
    intros q Hq. split; [|now apply P2]. destruct (E2 q Hq) as (v & -> & V). f_equal.
    assert (0 < post q). { unfold post. apply Rdiv_lt_0_compat; [|exact B]. apply Rmult_lt_0_compat; [apply softmax_pos; lia|now apply A]. }
    change (pr v = post q) in V. rewrite <- V. destruct v as [|v]; cbn [pr] in *; [lra|now rewrite ln_exp].
Qed.
Print Assumptions C194_rat_posterior.
(** the hypotheses are met by the model of C182_ex, which has two root nodes *)
Example C194_ex : (2 <= ra_root ex_cfg)%nat.
Proof. cbn. lia. Qed.

(** ** C195: the same for Einet and its classes *)
Theorem C195_ein_posterior : forall leaves c p d m s st,
  leaves_ok leaves m s (ei_reps c) -> mk_einet leaves c p d = Ok st ->
  exists grp, (draw_ok (length (query (scope_of m))) (ein_fdepth c (length (query (scope_of m)))) d ->
               partitions (length (query (scope_of m))) (ei_reps c) (2 ^ ein_fdepth c (length (query (scope_of m)))) grp) /\
  forall x, (forall f ch r, in_shape s f ch r -> loglik m x f ch r <> NInf) ->
  (2 <= ei_classes c)%nat ->
  let post q := ein_prior c p q * ein_class_density c p m s grp x q / ein_density c p m s grp x in
  ein_density c p m s grp x = bsum (ei_classes c) (fun q => ein_prior c p q * ein_class_density c p m s grp x q) /\
  bsum (ei_classes c) post = 1 /\
  exists lp pp b, stack_log_posterior (ei_classes c) st x = Ok lp /\ stack_predict_proba (ei_classes c) st x = Ok pp /\ stack_predict (ei_classes c) st x = Ok b /\
    (forall q, (q < ei_classes c)%nat -> lp q = Some (Fin (ln (post q))) /\ pp q = Some (post q)) /\
    (b < ei_classes c)%nat /\ (forall q, (q < ei_classes c)%nat -> post q <= post b) /\ forall q, (q < b)%nat -> post q < post b.
Proof.
  intros leaves c p d m s st HL E.
  exists (fc_mat (k_fact st)). split.
  - intros [Hs Hp]. destruct (ein_built leaves c p d m s HL (ein_ok_fine leaves c p d m s HL st E)) as (st' & de & E' & _ & Ef & _). rewrite E in E'. injection E' as <-.
    intros r i Hr Hi. destruct (owner_exists _ _ _ _ _ _ _ _ Hs Hp Ef r i Hi) as (g & Hg & Eg).
    exists g. split; [exact Hg|]. split; [exact Eg|]. intros h Eh. exact (owner_unique _ _ _ _ _ _ _ _ Hs Hp Ef r i h g Eh Eg).
  - intros x Hx Hn post. destruct (ein_post leaves c p d m s st HL E Hn x Hx) as (A & B & lp & E1 & E2).
    assert (ED : ein_density c p m s (fc_mat (k_fact st)) x = bsum (ei_classes c) (fun q => ein_prior c p q * ein_class_density c p m s (fc_mat (k_fact st)) x q)) by reflexivity.
    split; [exact ED|]. split; [exact (bayes_sum _ _ _ _ ED B)|].
    destruct (post_predict (ei_classes c) st x lp post ltac:(lia) E1 E2) as (pp & P1 & P2 & b & P3 & P4 & P5 & P6).
    exists lp, pp, b. split; [exact E1|]. split; [exact P1|]. split; [exact P3|]. split; [|auto].
    intros q Hq. split; [|now apply P2]. destruct (E2 q Hq) as (v & -> & V). f_equal.
    assert (0 < post q). { unfold post. apply Rdiv_lt_0_compat; [|exact B]. apply Rmult_lt_0_compat; [apply softmax_pos; lia|now apply A]. }
    change (pr v = post q) in V. rewrite <- V. destruct v as [|v]; cbn [pr] in *; [lra|now rewrite ln_exp].
Qed.
Print Assumptions C195_ein_posterior.
Example C195_ex : forall t b, (2 <= ei_classes (ein_ex t b))%nat.
Proof. intros. cbn. lia. Qed.

(** ** C196: an observed value impossible under one channel of its leaf makes every class
    probability NaN, and class 0 the prediction, of a RatSPN and (with two or more groups)
    of an Einet; a single class raises *)
Theorem C196_posterior_nan :
  (forall leaves c p d k m s st x i ch r,
    leaves_ok leaves m s (ra_reps c) -> (1 <= ra_reps c)%nat -> draw_ok (length (query (scope_of m))) (ra_depth c) d ->
    rat_mode c = Ok (k, 2%nat) -> k <> ByIndex -> mk_rat leaves c p d = Ok st -> (2 <= ra_root c)%nat ->
    in_shape s i ch r -> loglik m x i ch r = NInf ->
    exists pp, stack_predict_proba (ra_root c) st x = Ok pp /\ (forall q, pp q = None) /\ stack_predict (ra_root c) st x = Ok 0%nat) /\
  (forall leaves c p d m s st x i ch r,
    leaves_ok leaves m s (ei_reps c) -> draw_ok (length (query (scope_of m))) (ein_fdepth c (length (query (scope_of m)))) d ->
    mk_einet leaves c p d = Ok st -> (2 <= ei_classes c)%nat -> (1 <= ein_fdepth c (length (query (scope_of m))))%nat ->
    in_shape s i ch r -> loglik m x i ch r = NInf ->
    exists pp, stack_predict_proba (ei_classes c) st x = Ok pp /\ (forall q, pp q = None) /\ stack_predict (ei_classes c) st x = Ok 0%nat) /\
  (forall k x, stack_log_posterior 1 k x = Err /\ stack_predict_proba 1 k x = Err).
Proof.
  assert (O : forall n, oargmax n (fun _ => None) = 0%nat).
  { induction n as [|n IH]; [reflexivity|]. cbn [oargmax]. destruct (Nat.eqb n 0); [reflexivity|]. exact IH. }
  assert (L : forall n k x lp, stack_log_posterior n k x = Ok lp -> (forall q, lp q = None) ->
    exists pp, stack_predict_proba n k x = Ok pp /\ (forall q, pp q = None) /\ stack_predict n k x = Ok 0%nat).
  { intros n k x lp E H. unfold stack_predict, stack_predict_proba. rewrite E. cbn [bind]. eexists. split; [reflexivity|].
    assert (V : forall q, option_map pr (lp q) = None) by (intros q; now rewrite H). split; [exact V|].
    rewrite (oargmax_ext n _ (fun _ => None)) by (intros; apply V). now rewrite O. }
  split; [|split].
  - intros leaves c p d k m s st x i ch r HL HR Hd Hm Hk E Hn IN N. destruct (rat_ok_fine _ _ _ _ _ _ _ _ HL HR Hm Hk E) as [HF H3].
    destruct (rat_post_nan leaves c p d k m s st HL Hm Hk HR HF H3 E Hn Hd x i ch r IN N) as (lp & E1 & E2). exact (L _ _ _ _ E1 E2).
  - intros leaves c p d m s st x i ch r HL Hd E Hn Hf IN N.
    destruct (ein_post_nan leaves c p d m s st HL E Hn Hd x i ch r Hf IN N) as (lp & E1 & E2). exact (L _ _ _ _ E1 E2).
  - intros k x. split; reflexivity.
Qed.
Print Assumptions C196_posterior_nan.
