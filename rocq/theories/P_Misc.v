(** Properties C35, C37, C38, C54, C55, C112-C119: region graphs, method replacement,
    class posteriors, RatSPN sampling, structure statistics. *)
From Coq Require Import List Arith ZArith Bool Reals Lra Lia Sorted.
From Verif Require Import Base ScopeModel ScopeProofs RegionModel RegionSpec RegionProofs ReplaceModel ReplaceProofs
  CircuitModel CircuitSpec CircuitBasics Integral SampleModel SampleSpec ExpUnique CircuitExamples SampleExamples
  PosteriorModel PosteriorProofs PosteriorTop StatsModel StatsSpec StatsProofs.
Import ListNotations.

(** ** C35: region graphs *)
(** A partition is accepted exactly when it is non-empty, pairwise disjoint and covers
    the region; it is then appended. *)
Theorem C35_add_partition : forall r rs, valid (r_scope r) -> Forall (fun c => valid (r_scope c)) rs ->
  ((exists r', add_partition r rs = Ok r') <->
   rs <> [] /\ ForallOrdPairs (fun a b => forall v, In v (query (r_scope a)) -> ~ In v (query (r_scope b))) rs /\
   forall v, In v (query (r_scope r)) <-> exists c, In c rs /\ In v (query (r_scope c))) /\
  (forall r', add_partition r rs = Ok r' -> r_scope r' = r_scope r /\ r_children r' = r_children r ++ [rs]).
Proof. exact add_partition_spec. Qed.
Print Assumptions C35_add_partition.
Definition rg (q : list nat) (ps : list (list region)) : region := Region (mkScope q []) ps.
Example C35_add_ok : add_partition (rg [0; 1; 2] []) [rg [2] []; rg [0; 1] []] = Ok (rg [0; 1; 2] [[rg [2] []; rg [0; 1] []]]).
Proof. reflexivity. Qed.
Example C35_add_overlap : add_partition (rg [0; 1; 2] []) [rg [2; 1] []; rg [0; 1] []] = Err.
Proof. reflexivity. Qed.
Example C35_add_missing : add_partition (rg [0; 1; 2] []) [rg [2] []; rg [0] []] = Err.
Proof. reflexivity. Qed.

(** post_order: only regions of the graph; all of them up to equality; every region after
    its parts; the root last; no two equal ones when scopes are stored sorted. *)
Theorem C35_post_order : forall root,
  (forall r, In r (post_order root) -> RegionSpec.reach root r) /\
  (forall r, RegionSpec.reach root r -> exists d, In d (post_order root) /\ region_equal r d) /\
  (forall l1 r l2, post_order root = l1 ++ r :: l2 -> forall c, is_child c r -> exists d, In d l1 /\ region_equal c d) /\
  (exists l, post_order root = l ++ [root]).
Proof. exact post_order_spec. Qed.
Print Assumptions C35_post_order.
Theorem C35_post_order_distinct : forall root, (forall r, RegionSpec.reach root r -> sorted_scope (r_scope r)) ->
  ForallOrdPairs (fun a b => ~ region_equal a b) (post_order root).
Proof. exact post_order_distinct. Qed.
Print Assumptions C35_post_order_distinct.
Theorem C35_regions : forall root,
  (forall r, In r (regions root) -> RegionSpec.reach root r) /\
  (forall r, RegionSpec.reach root r -> exists d, In d (regions root) /\ region_equal r d) /\
  ((forall r, RegionSpec.reach root r -> sorted_scope (r_scope r)) -> ForallOrdPairs (fun a b => ~ region_equal a b) (regions root)).
Proof. exact regions_spec. Qed.
Print Assumptions C35_regions.
Definition share : region := rg [1; 2] [[rg [1] []; rg [2] []]].
Definition ex_rg : region := rg [0; 1; 2] [[rg [0] []; share]; [rg [0; 1] [[rg [0] []; rg [1] []]]; rg [2] []]].
Example C35_post_order_ex : post_order ex_rg =
  [rg [0] []; rg [1] []; rg [2] []; share; rg [0; 1] [[rg [0] []; rg [1] []]]; ex_rg].
Proof. vm_compute. reflexivity. Qed.
Example C35_regions_ex : length (regions ex_rg) = 6%nat.
Proof. vm_compute. reflexivity. Qed.

(** C112: without sorted scopes two equal regions are listed *)
Theorem C112_duplicate_regions_refuted : exists root a b,
  (forall r, RegionSpec.reach root r -> valid (r_scope r)) /\ region_equal a b /\
  exists l1 l2 l3, post_order root = l1 ++ a :: l2 ++ b :: l3.
Proof.
  exists bad_root, (rg [0; 1] []), (rg [1; 0] []). split; [|split].
  - intros r H. assert (forall r, RegionSpec.reach bad_root r -> In r (bad_root :: children_of bad_root)) as K.
    { induction 1 as [|r' c Hr IH Hc]; [now left|]. apply is_child_In in Hc.
      cbn in IH. destruct IH as [<-|[<-|[<-|[<-|[<-|[]]]]]]; cbn in Hc; [right; exact Hc|destruct Hc..]. }
    apply K in H. cbn in H. destruct H as [<-|[<-|[<-|[<-|[<-|[]]]]]]; match goal with |- valid (r_scope (Region (mkScope ?q ?e) _)) => exact (proj2 (proj1 (scope_init_nat_ok q e (mkScope q e)) eq_refl)) | |- valid (r_scope bad_root) => exact (proj2 (proj1 (scope_init_nat_ok [0; 1; 2] [] (mkScope [0; 1; 2] [])) eq_refl)) end.
  - apply region_eqb_spec. reflexivity.
  - rewrite bad_post_order. exists [], [rg [2] []], [bad_root]. reflexivity.
Qed.
Print Assumptions C112_duplicate_regions_refuted.

(** ** C37: replace *)
(** The world after any program of nested and sequential replacements is the world
    before it, however the program ends; functions are ordinary methods or plain
    functions outside classes. *)
Theorem C37_restores : forall k w, good w -> (forall g, In g (funcs k) -> ordinary w g) ->
  (forall c n, w_own (after k w) c n = w_own w c n) /\ w_mro (after k w) = w_mro w /\ w_class (after k w) = w_class w.
Proof. exact exec_restores. Qed.
Print Assumptions C37_restores.
(** In the body the attribute is the replacement (behind @cached if the original was
    decorated) for the class and everything inheriting from it; all else is unchanged. *)
Theorem C37_inside : forall w r f m c n orig, resolve w r = Ok m -> extract w m = Ok (c, n) -> getattr w c n = Some orig ->
  let new := if f_wrapped orig then cached f else f in
  (forall c' l1 l2, w_mro w c' = l1 ++ c :: l2 -> (forall b, In b l1 -> w_own w b n = None) ->
     seen (With r f (Read c' n)) w = [Some new]) /\
  (forall c' l1 b l2 a, w_mro w c' = l1 ++ b :: l2 -> b <> c -> (forall x, In x l1 -> x <> c /\ w_own w x n = None) ->
     w_own w b n = Some a -> seen (With r f (Read c' n)) w = [getattr w c' n]) /\
  (forall c' n', n' <> n -> seen (With r f (Read c' n')) w = [getattr w c' n']).
Proof. exact inside. Qed.
Print Assumptions C37_inside.

(** class 0 = LeafModule (defines log_likelihood = 7, decorated), 1 = Normal(LeafModule),
    2 = Bernoulli(LeafModule), 3 = Scope with the static method join_all = 8; module 0 *)
Definition f_ll : func := mkFunc 100 7 (Some 50) 0 true.
Definition f_join : func := mkFunc 200 8 (Some 53) 0 false.
Definition w0 : world := mkWorld
  (fun c n => if (Nat.eqb c 0 && Nat.eqb n 7)%bool then Some (Plain f_ll) else
              if (Nat.eqb c 3 && Nat.eqb n 8)%bool then Some (Static f_join) else None)
  (fun c => match c with 1 => [1; 0] | 2 => [2; 0] | c => [c] end)
  (fun m q => if (Nat.eqb m 0 && Nat.leb 50 q && Nat.leb q 53)%bool then Some (q - 50) else None).
(** two user functions outside any class *)
Definition u1 : func := mkFunc 300 9 None 5 false.
Definition u2 : func := mkFunc 400 9 None 5 false.
Lemma u_ordinary w : ordinary w u1 /\ ordinary w u2.
Proof. split; intros q c H; discriminate H. Qed.
Lemma ll_ordinary : ordinary w0 f_ll.
Proof. intros q c H. injection H as <-. cbn. intros H. injection H as <-. exists f_ll. reflexivity. Qed.

(** a world of ordinary methods only *)
Definition w1 : world := mkWorld (fun c n => if (Nat.eqb c 0 && Nat.eqb n 7)%bool then Some (Plain f_ll) else None) (w_mro w0) (w_class w0).
Lemma w1_good : good w1.
Proof.
  split; [intros [|[|[|c]]]; eexists; reflexivity|]. intros c n a. cbn. destruct (Nat.eqb c 0 && Nat.eqb n 7)%bool; [|discriminate].
  intros H. injection H as <-. intros q d H. injection H as <-. cbn. intros H. injection H as <-. exists f_ll. reflexivity.
Qed.
Definition prog_ex : cmd := With (Captured f_ll) u1 (Seq (Read 1 7) (Seq (With (Captured f_ll) u2 (Seq (Read 2 7) Throw)) Skip)).
Example C37_ex : seen prog_ex w1 = [Some (cached u1); Some (cached u2)] /\ raised prog_ex w1 = true /\ getattr (after prog_ex w1) 1 7 = Some f_ll.
Proof. repeat split. Qed.
Example C37_ex_hyp : forall g, In g (funcs prog_ex) -> ordinary w1 g.
Proof.
  cbn. intros g [<-|[<-|[<-|[<-|[]]]]]; try apply u_ordinary; intros q c H; injection H as <-; cbn; intros H; injection H as <-; exists f_ll; reflexivity.
Qed.

(** C113: a static method is not restored: a plain function takes its place *)
Theorem C113_static_refuted : exists w c n f m, w_own w c n = Some (Static m) /\ getattr w c n = Some m /\
  raised (With (Attr c n) f Skip) w = false /\ w_own (after (With (Attr c n) f Skip) w) c n <> w_own w c n.
Proof. exists w0, 3, 8, u1, f_join. repeat split. discriminate. Qed.
Print Assumptions C113_static_refuted.

(** C114: inside the context the attribute cannot be replaced again through the class *)
Theorem C114_nested_refuted : exists w c n f g, good w /\ ordinary w f /\ ordinary w g /\
  raised (With (Attr c n) f Skip) w = false /\ raised (With (Attr c n) g Skip) w = false /\
  raised (With (Attr c n) f (With (Attr c n) g Skip)) w = true.
Proof. exists w1, 0, 7, u1, u2. split; [apply w1_good|]. split; [apply u_ordinary|]. split; [apply u_ordinary|]. repeat split. Qed.
Print Assumptions C114_nested_refuted.

(** C115: replacing an inherited method changes classes that are not below the named one *)
Theorem C115_inherited_refuted : exists w c c' n f, good w /\ ordinary w f /\ ~ In c (w_mro w c') /\
  seen (With (Attr c n) f (Read c' n)) w <> [getattr w c' n].
Proof.
  exists w1, 1, 2, 7, u1. split; [apply w1_good|]. split; [apply u_ordinary|]. split; [cbn; lia|]. cbn. discriminate.
Qed.
Print Assumptions C115_inherited_refuted.

(** ** C38: class posteriors *)
Local Open Scope R_scope.
(** log_posterior on any tensors: Bayes' rule for every row with positive evidence *)
Theorem C38_bayes : forall n ll prior, 0 < bsum n (fun j => pr (ll j) * pr (prior j)) ->
  (forall c, exists v, log_posterior n ll prior c = Some v /\
     pr v = pr (ll c) * pr (prior c) / bsum n (fun j => pr (ll j) * pr (prior j))) /\
  bsum n (fun c => match predict_proba n ll prior c with Some p => p | None => 0 end) = 1.
Proof. intros n ll prior H. split; [intros c; exact (posterior_pos n ll prior c H)|exact (posterior_sum n ll prior H)]. Qed.
Print Assumptions C38_bayes.
(** the classifiers: prior = mixture weights, evidence = the model's own likelihood *)
Theorem C38_classifier : forall inputs lg x, (2 <= channels (out_shape inputs))%nat -> 0 < prob (class_root inputs lg) x 0 0 0 ->
  exists p, class_predict_proba inputs lg x = Ok p /\
    (forall c, (c < channels (out_shape inputs))%nat ->
       p c = Some (softmax (channels (out_shape inputs)) lg c * prob inputs x 0 c 0 / prob (class_root inputs lg) x 0 0 0)) /\
    bsum (channels (out_shape inputs)) (fun c => match p c with Some q => q | None => 0 end) = 1.
Proof.
  intros inputs lg x Hn HZ. destruct (class_posterior inputs lg x Hn HZ) as (p & E & Hp). exists p. split; [exact E|]. split; [exact Hp|].
  rewrite <- (class_sum inputs lg x Hn HZ). apply bsum_ext. intros c Hc. rewrite (Hp c Hc). reflexivity.
Qed.
Print Assumptions C38_classifier.
Theorem C38_predict : forall inputs lg x, (2 <= channels (out_shape inputs))%nat -> 0 < prob (class_root inputs lg) x 0 0 0 ->
  exists k, class_predict inputs lg x = Ok k /\ (k < channels (out_shape inputs))%nat /\
    forall c, (c < channels (out_shape inputs))%nat ->
      softmax (channels (out_shape inputs)) lg c * prob inputs x 0 c 0 <= softmax (channels (out_shape inputs)) lg k * prob inputs x 0 k 0.
Proof. exact class_predict_max. Qed.
Print Assumptions C38_predict.
Theorem C38_single_class : forall inputs lg x, (channels (out_shape inputs) <= 1)%nat -> class_predict_proba inputs lg x = Err.
Proof. exact class_single. Qed.
Print Assumptions C38_single_class.
Example C38_ex : (2 <= channels (out_shape ratI))%nat /\ prob (class_root ratI rlg) e1 0 0 0 = 3/8.
Proof. split; [cbn; lia|exact ratR_e1]. Qed.

(** C116: a row of probability zero has no posterior (NaN), not even the prior *)
Theorem C116_zero_evidence_refuted : exists inputs lg x, built (class_root inputs lg) /\ (2 <= channels (out_shape inputs))%nat /\
  exists p, class_predict_proba inputs lg x = Ok p /\ forall c, (c < channels (out_shape inputs))%nat -> p c = None.
Proof.
  exists (MLeaf (unif [0]%nat 2 (fun _ _ => 1))), (fun _ => 0), (fun _ => Some 2).
  assert (built (MLeaf (unif [0]%nat 2 (fun _ _ => 1)))) as B.
  { apply b_leaf. apply leaf_okb_spec. cbn. repeat split; try lia; try discriminate; repeat constructor; cbn; intuition lia. }
  split; [|split; [cbn; lia|]].
  - eapply b_log_weights. eapply (b_sum_w _ 1 1 (W4 (mkW 1 2 1 1 (fun _ _ _ _ => 1/2)))); [exact B|].
    apply (MargProofs.mk_sum_w_intro (MLeaf (unif [0]%nat 2 (fun _ _ => 1))) (mkW 1 2 1 1 (fun _ _ _ _ => 1/2))); cbn; try lia; intros; lra.
  - apply class_posterior_zero; [cbn; lia|]. rewrite root_prob by (cbn; lia). apply bsum_zero. intros c Hc.
    replace (prob _ _ 0 c 0) with 0; [ring|]. unfold prob, loglik. cbn [evalm]. unfold leaf_score. cbn [l_scope l_lp unif].
    unfold unif_lp. destruct (Rle_dec 0 2); [|reflexivity]. destruct (Rlt_dec 2 1); [lra|reflexivity].
Qed.
Print Assumptions C116_zero_evidence_refuted.

(** C118: naive Bayes priors *)
Theorem C118_naive_bayes_prior : forall n p, (0 < n)%nat ->
  ((exists w, nb_prior n p = Ok w) <-> match p with None => True | Some q => forall c, (c < n)%nat -> 0 < q c end) /\
  forall w, nb_prior n p = Ok w -> (forall c, (c < n)%nat -> 0 < w c) /\ bsum n w = 1 /\
    match p with None => forall c, w c = / INR n | Some q => forall c, w c = q c / bsum n q end.
Proof. exact nb_prior_spec. Qed.
Print Assumptions C118_naive_bayes_prior.
Theorem C118_naive_bayes_counts : forall eps n ys, (0 < n)%nat -> 0 < eps -> Forall (fun y => (y < n)%nat) ys ->
  (forall c, (c < n)%nat -> 0 < nb_empirical eps n ys c /\
     nb_empirical eps n ys c = (INR (count_of c ys) + eps) / (INR (length ys) + INR n * eps)) /\
  bsum n (nb_empirical eps n ys) = 1.
Proof.
  intros eps n ys Hn He Hy. destruct (nb_empirical_spec eps n ys Hn He) as [A B]. split; [|exact B].
  intros c Hc. split; [auto|]. unfold nb_empirical. rewrite bsum_plus, counts_total, bsum_const by assumption. reflexivity.
Qed.
Print Assumptions C118_naive_bayes_counts.
Example C118_ex : nb_empirical (/ 4) 3 [0; 2; 2]%nat 1 = / 15.
Proof. unfold nb_empirical, count_of. cbn. lra. Qed.

(** ** C54 / C117: RatSPN sampling *)
Theorem C117_rat_sampling : forall (dom : nat -> list R) W inputs lg s, (forall v, NoDup (dom v)) ->
  features (out_shape inputs) = 1%nat -> built (class_root inputs lg) -> aligned (class_root inputs lg) ->
  ll_shape (class_root inputs lg) = Ok s -> (0 < repetitions s)%nat ->
  (forall v, vars (class_root inputs lg) v -> (v < W)%nat) ->
  forall x vs y, (forall v, vars (class_root inputs lg) v -> x v = None) -> NoDup vs -> (forall v, In v vs <-> vars (class_root inputs lg) v) ->
  (forall v, In v vs -> exists b, y v = Some b /\ In b (dom v)) -> (forall v, ~ In v vs -> y v = x v) ->
  expects (fun v => DFin (dom v)) (rat_sample false W None inputs lg x) (tests (point y) vs)
    (prob (class_root inputs lg) y 0 0 0).
Proof. exact rat_unconditional. Qed.
Print Assumptions C117_rat_sampling.
Example C117_ex : features (out_shape ratI) = 1%nat /\ built (class_root ratI rlg) /\ aligned (class_root ratI rlg) /\
  ll_shape (class_root ratI rlg) = Ok (mkShape 1 1 1).
Proof. split; [reflexivity|]. split; [apply ratR_built|]. split; [exact I|reflexivity]. Qed.

(** The full C54: for every evidence row the completions follow the conditional.  False:
    the class is drawn from the prior.  Given X0 = 1, X2 = 1 has conditional probability
    1/3 under the model but is drawn with probability 12/35. *)
Theorem C54_rat_evidence_refuted : exists inputs lg e y W, built (class_root inputs lg) /\
  (exists u, expects (fun _ => bits) (rat_sample_with_evidence false W inputs lg e) (tests (point y) [2]%nat) u) /\
  0 < prob (class_root inputs lg) e 0 0 0 /\ y 0%nat = e 0%nat /\ e 2%nat = None /\ y 2%nat = Some 1 /\ query (scope_of inputs) = [0; 2]%nat /\
  forall u, expects (fun _ => bits) (rat_sample_with_evidence false W inputs lg e) (tests (point y) [2]%nat) u ->
    u <> prob (class_root inputs lg) y 0 0 0 / prob (class_root inputs lg) e 0 0 0.
Proof.
  exists ratI, rlg, e1, y1, 3%nat. split; [apply ratR_built|]. split; [exists (12/35); apply rat_conditional_draw|].
  rewrite ratR_e1, ratR_y1. split; [lra|]. repeat (split; [reflexivity|]). intros u Hu.
  rewrite (expects_unique _ _ _ _ _ Hu rat_conditional_draw). lra.
Qed.
Print Assumptions C54_rat_evidence_refuted.

(** ** C55: structure statistics *)
Theorem C55_stats : forall G N root nodes size, (root < N)%nat -> (forall n c, (n < N)%nat -> In c (children G n) -> (c < N)%nat) ->
  NoDup nodes -> (forall n, In n nodes <-> reach G root n) ->
  (forall n nm t k, In n nodes -> In (nm, t, k) (o_params (G n)) -> k = size t) ->
  (cyclic G root -> get_structure_stats G N root = Err) /\
  (~ cyclic G root -> exists s, get_structure_stats G N root = Ok s /\
     s_nodes s = length nodes /\
     s_edges s = list_sum (map (fun n => length (children G n)) nodes) /\
     (forall t, s_types s t = length (filter (fun n => Nat.eqb (o_class (G n)) t) nodes)) /\
     (forall k, s_scopes s k = length (filter (fun n => Nat.eqb (o_scope (G n)) k) nodes)) /\
     (exists ts, NoDup ts /\ (forall t, In t ts <-> exists n nm k, In n nodes /\ In (nm, t, k) (o_params (G n))) /\
        s_params s = list_sum (map size ts)) /\
     longest G root (s_depth s) /\
     s_shared s = length (filter (fun n => Nat.ltb 1 (refs_to G nodes n)) nodes) /\
     (s_dag s = true <-> exists n, In n nodes /\ (1 < refs_to G nodes n)%nat)).
Proof. exact stats_spec. Qed.
Print Assumptions C55_stats.
(** Sum(0) over Cat(1) of the leaf 2 (twice) and a Sum(3) of the leaf 2 *)
Definition exG : heap := fun n => match n with
  | 0 => mkObj 5 None (One 1) None [(0, 10, 3)]%nat 1
  | 1 => mkObj CAT None (Many [2; 3; 2])%nat None [] 1
  | 2 => mkObj 6 None NoInputs None [(1, 11, 4)]%nat 1
  | _ => mkObj 5 None (One 2) None [(0, 10, 3)]%nat 1
  end%nat.
Example C55_ex : exists s, get_structure_stats exG 4 0 = Ok s /\ s_nodes s = 3%nat /\ s_edges s = 4%nat /\ s_params s = 7%nat /\
  s_depth s = 3%nat /\ s_shared s = 1%nat /\ s_types s 5%nat = 2%nat.
Proof. eexists. split; [reflexivity|]. repeat split. Qed.
Example C55_closed : forall n c, (n < 4)%nat -> In c (children exG n) -> (c < 4)%nat.
Proof. intros [|[|[|[|n]]]] c Hn; cbn; try lia; intros H; repeat destruct H as [<-|H]; try lia; destruct H. Qed.

(** C119: the circuit of a model that keeps it in [root_node] and is not a RatSPN
    (Einet, NaiveBayes) is not counted *)
Definition nbG : heap := fun n => match n with
  | 0 => mkObj 7 None NoInputs (Some 1) [] 2
  | 1 => mkObj 5 None (One 2) None [(0, 10, 2)] 2
  | 2 => mkObj 8 None (One 3) None [] 2
  | _ => mkObj 6 None NoInputs None [(1, 11, 4)] 2
  end%nat.
Theorem C119_root_node_refuted : exists G N root s c, o_root (G root) = Some c /\ (c < N)%nat /\ o_params (G c) <> [] /\
  get_structure_stats G N root = Ok s /\ s_nodes s = 1%nat /\ s_edges s = 0%nat /\ s_params s = 0%nat /\ s_depth s = 1%nat.
Proof.
  exists nbG, 4%nat, 0%nat. eexists. exists 1%nat. split; [reflexivity|]. split; [lia|]. split; [discriminate|].
  split; [reflexivity|]. repeat split.
Qed.
Print Assumptions C119_root_node_refuted.
