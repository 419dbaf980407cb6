(** C53, C168-C172: spanning trees of a complete graph (zoo/hclt/topk_mst.py). *)
From Coq Require Import List Arith Bool Reals Lia Lra Permutation Sorted.
From Verif Require Import Base CltSpec MstModel MstSpec MstUf MstKruskal MstTop MstEnum MstMax.
Import ListNotations.
Local Open Scope R_scope.

Lemma pairwise_nth {A} (D : A -> A -> Prop) x0 l : pairwise D l -> forall i j, (i < j < length l)%nat -> D (nth i l x0) (nth j l x0).
Proof.
  induction l as [|a l IH]; intros HP i j Hij; [cbn in Hij; lia|]. destruct HP as [HF HP]. cbn [length] in Hij. destruct j as [|j]; [lia|]. destruct i as [|i]; cbn [nth].
  - rewrite Forall_forall in HF. apply HF, nth_In. lia.
  - apply IH; [exact HP|lia].
Qed.
Lemma pairwise_distinct out : pairwise nsame out -> distinct_trees out.
Proof.
  intros HP i j Hi Hj S. destruct (lt_eq_lt_dec i j) as [[L|E]|L]; [|exact E|].
  - elim (pairwise_nth nsame [] out HP i j (conj L Hj) S).
  - elim (pairwise_nth nsame [] out HP j i (conj L Hi)). intros e. symmetry. apply S.
Qed.
Lemma sorted_nth_le (f : list (nat * nat) -> R) l : StronglySorted (fun A B => f A <= f B) l -> forall i j, (i < j < length l)%nat -> f (nth i l []) <= f (nth j l []).
Proof.
  induction 1 as [|a l S IH HF]; intros i j Hij; [cbn in Hij; lia|]. cbn [length] in Hij. destruct j as [|j]; [lia|]. destruct i as [|i]; cbn [nth].
  - rewrite Forall_forall in HF. apply HF, nth_In. lia.
  - apply IH. lia.
Qed.

(** *** C168: Kruskal on a dense matrix of finite weights returns a spanning tree of
    minimum total weight, and with minimize=False of maximum total weight; the
    union-find loops terminate.  Only the cells above the diagonal matter. *)
Theorem C168_kruskal_min : forall n (w : nat -> nat -> R), (0 < n)%nat ->
  exists M, kruskal_mst_complete n n (fun i j => Num (w i j)) true = Ok M /\ tree n M /\ forall T, tree n T -> weight w M <= weight w T.
Proof.
  intros n w Hn. destruct (kruskal_optimal n w true Hn) as (M & EM & HT & MX). exists M. split; [exact EM|]. split; [exact HT|].
  intros T TT. specialize (MX T TT). now rewrite !weight_sgn in MX.
Qed.
Theorem C168_kruskal_max : forall n (w : nat -> nat -> R), (0 < n)%nat ->
  exists M, kruskal_mst_complete n n (fun i j => Num (w i j)) false = Ok M /\ tree n M /\ forall T, tree n T -> weight w T <= weight w M.
Proof.
  intros n w Hn. destruct (kruskal_optimal n w false Hn) as (M & EM & HT & MX). exists M. split; [exact EM|]. split; [exact HT|].
  intros T TT. specialize (MX T TT). rewrite !weight_sgn in MX. cbn in MX. lra.
Qed.
(** infinite cells are allowed; NaN cells, empty and non-square matrices are rejected *)
Theorem C168_kruskal_checks : forall rows cols w mn, (exists M, kruskal_mst_complete rows cols w mn = Ok M) <->
  (rows = cols /\ (0 < rows)%nat /\ forall i j, (i < rows)%nat -> (j < rows)%nat -> w i j <> NaN).
Proof.
  intros rows cols w mn. split.
  - intros (M & H). unfold kruskal_mst_complete in H. destruct (Nat.eqb_spec rows cols) as [E|]; [|discriminate]. cbn [negb] in H. destruct (Nat.eqb_spec rows 0); [discriminate|].
    destruct (existsb _ _) eqn:EN; [discriminate|]. apply (proj2 (nan_check rows w)) in EN. split; [exact E|]. split; [lia|]. intros i j Hi Hj K. specialize (EN i j Hi Hj). rewrite K in EN. discriminate.
  - intros (<- & Hn & H). destruct (kruskal_spec rows w mn Hn) as (M & EM & _); [|now exists M]. intros i j Hi Hj. specialize (H i j Hi Hj). destruct (w i j); [congruence|reflexivity..].
Qed.

(** *** C53: the k best spanning trees *)
Theorem C53_topk_best : forall n m w k masks, matrix_is n m w -> (0 < n)%nat -> (0 < k)%nat ->
  exists out, topk_mst n n m k 0 masks true = Ok out /\
    (0 < length out <= k)%nat /\ Forall (tree n) out /\ distinct_trees out /\
    (forall i j, (i < j < length out)%nat -> weight w (nth i out []) <= weight w (nth j out [])) /\
    (forall T, tree n T -> (exists T', In T' out /\ same_tree T T') \/
       (length out = k /\ forall T', In T' out -> weight w T' <= weight w T)).
Proof.
  intros n m w k masks HM Hn Hk. destruct (topk_run n m w k 0 masks HM Hn Hk) as (out & EO & (HT & HP & HL & HB) & NE & _); [split; lra|].
  destruct (HB eq_refl) as [HS HC]. exists out. split; [exact EO|]. split; [destruct out; [congruence|cbn in *; lia]|]. split; [exact HT|]. split; [now apply pairwise_distinct|].
  split; [apply sorted_nth_le; exact HS|exact HC].
Qed.
(** asking for at least as many trees as there are returns every spanning tree *)
Theorem C53_topk_complete : forall n m w k masks, matrix_is n m w -> (0 < n)%nat -> (0 < k)%nat ->
  forall out, topk_mst n n m k 0 masks true = Ok out -> (length out < k)%nat -> forall T, tree n T -> exists T', In T' out /\ same_tree T T'.
Proof.
  intros n m w k masks HM Hn Hk out EO HL T HT. destruct (C53_topk_best n m w k masks HM Hn Hk) as (out' & EO' & _ & _ & _ & _ & HC).
  assert (out' = out) by congruence. subst out'. destruct (HC T HT) as [H|[H _]]; [exact H|lia].
Qed.
Theorem C53_topk_checks : forall rows cols m k d masks mn out, topk_mst rows cols m k d masks mn = Ok out ->
  (0 < k)%nat /\ rows = cols /\ (0 < rows)%nat /\ forall i j, (i < rows)%nat -> (j < rows)%nat -> m i j <> None.
Proof. exact topk_checks. Qed.

(** *** C169: minimize=False.  Included edges get the weight -inf and excluded ones
    +inf in both directions, so every constrained search takes the excluded edge first
    and is discarded: whatever num_trees, one tree comes back. *)
Theorem C169_maximize_returns_one_refuted : forall n m w k masks, matrix_is n m w -> (0 < n)%nat -> (0 < k)%nat ->
  exists M, topk_mst n n m k 0 masks false = Ok [M] /\ tree n M /\ forall T, tree n T -> weight w T <= weight w M.
Proof. exact topk_max. Qed.

(** *** C170: edge dropout: still distinct spanning trees, the first one optimal *)
Theorem C170_dropout_trees : forall n m w k d masks, matrix_is n m w -> (0 < n)%nat -> (0 < k)%nat -> 0 <= d < 1 ->
  exists out, topk_mst n n m k d masks true = Ok out /\ (0 < length out <= k)%nat /\ Forall (tree n) out /\ distinct_trees out /\
    forall T, tree n T -> weight w (nth 0 out []) <= weight w T.
Proof.
  intros n m w k d masks HM Hn Hk HD. destruct (topk_run n m w k d masks HM Hn Hk HD) as (out & EO & (HT & HP & HL & HB) & NE & HF).
  exists out. split; [exact EO|]. split; [destruct out; [congruence|cbn in *; lia]|]. split; [exact HT|]. split; [now apply pairwise_distinct|].
  intros T TT. specialize (HF T TT). destruct out; [congruence|exact HF].
Qed.

(** three nodes: three spanning trees *)
Definition tri (i j : nat) : option R := Some (INR (i + j)).
Lemma tri_matrix n : matrix_is n tri (fun i j => INR (i + j)).
Proof. intros i j _ _. reflexivity. Qed.
Lemma tri_tree a b c : (a, b, c) = (0, 1, 2)%nat \/ (a, b, c) = (1, 0, 2)%nat \/ (a, b, c) = (2, 0, 1)%nat ->
  tree 3 [canon (a, b); canon (a, c)].
Proof.
  intros H. assert (G : forall x y z, (x < 3)%nat -> (y < 3)%nat -> (z < 3)%nat -> x <> y -> x <> z -> y <> z -> tree 3 [canon (x, y); canon (x, z)]).
  { intros x y z Hx Hy Hz N1 N2 N3. set (E := [canon (x, y); canon (x, z)]).
    assert (L1 : linked E x y).
    { eapply l_step; [apply l_refl|]. unfold E, canon. cbn [fst snd]. destruct (Nat.leb x y); [left|right]; now left. }
    assert (L2 : linked E x z).
    { eapply l_step; [apply l_refl|]. unfold E, canon. cbn [fst snd]. destruct (Nat.leb x z); [left|right]; right; now left. }
    assert (B : forall u v, In (u, v) E -> (u < v < 3)%nat).
    { intros u v [K|[K|[]]]; unfold canon in K; cbn [fst snd] in K; [destruct (Nat.leb_spec x y)|destruct (Nat.leb_spec x z)]; injection K as <- <-; lia. }
    assert (R : forall u, (u < 3)%nat -> linked E x u).
    { intros u Hu. assert (D : u = x \/ u = y \/ u = z) by lia. destruct D as [-> | [-> | ->]]; [apply l_refl|exact L1|exact L2]. }
    split; [split; [intros u v K; specialize (B u v K); lia|split; [|reflexivity]]|intros u v K; specialize (B u v K); lia].
    intros u v Hu Hv. apply (CltPrim.linked_trans E u x v); [apply CltPrim.linked_sym, R, Hu|apply R, Hv]. }
  destruct H as [H|[H|H]]; injection H as -> -> ->; apply G; lia.
Qed.

(** *** C171: with dropout fewer trees than requested may come back although more
    exist: a dropped edge and an excluded edge both weigh +inf, the tie goes to the
    smaller index, and the tree holding the excluded edge is discarded *)
Theorem C171_dropout_loses_trees_refuted : exists n m w k d masks out, matrix_is n m w /\ 0 <= d < 1 /\
  topk_mst n n m k d masks true = Ok out /\ (length out < k)%nat /\
  exists T, tree n T /\ forall T', In T' out -> ~ same_tree T T'.
Proof.
  exists 3%nat, tri, (fun i j => INR (i + j)), 3%nat, (1/2), (fun _ _ _ => true), [[(0, 1)%nat; (0, 2)%nat]].
  split; [apply tri_matrix|]. split; [lra|].
  assert (R0 : rlt 0 0 = false) by (unfold rlt; destruct (Rlt_dec 0 0); [exfalso; lra|reflexivity]).
  assert (R1 : rlt 0 1 = true) by (unfold rlt; destruct (Rlt_dec 0 1); [reflexivity|exfalso; lra]).
  assert (R2 : rlt (1/2) 0 = false) by (unfold rlt; destruct (Rlt_dec (1/2) 0); [exfalso; lra|reflexivity]).
  assert (R3 : rlt (1/2) 1 = true) by (unfold rlt; destruct (Rlt_dec (1/2) 1); [reflexivity|exfalso; lra]).
  assert (R4 : rlt 0 (1/2) = true) by (unfold rlt; destruct (Rlt_dec 0 (1/2)); [reflexivity|exfalso; lra]).
  assert (E0 : mst_with_constraints 3 tri [] [] 0 (fun _ _ => false) true = Ok (Some ([(0, 1)%nat; (0, 2)%nat], total_of tri [(0, 1)%nat; (0, 2)%nat]))).
  { unfold mst_with_constraints. rewrite R0, R1. cbn -[total_of INR tri rlt Rlt_dec].
    unfold kruskal_mst_complete. cbn -[total_of INR rlt Rlt_dec before].
    set (K := reuse tri false (fun _ _ : nat => false) [] []).
    assert (B1 : before K (1, 2)%nat (0, 2)%nat = false).
    { unfold before, K, reuse. cbn -[INR Rlt_dec]. destruct (Rlt_dec (INR 3) (INR 2)); [exfalso; cbn in *; lra|]. destruct (Rlt_dec (INR 2) (INR 3)); [reflexivity|exfalso; cbn in *; lra]. }
    assert (B2 : before K (0, 2)%nat (0, 1)%nat = false).
    { unfold before, K, reuse. cbn -[INR Rlt_dec]. destruct (Rlt_dec (INR 2) (INR 1)); [exfalso; cbn in *; lra|]. destruct (Rlt_dec (INR 1) (INR 2)); [reflexivity|exfalso; cbn in *; lra]. }
    rewrite B1. cbn [einsert]. rewrite B2. reflexivity. }
  split.
  - unfold topk_mst. rewrite E0. cbn -[mst_with_constraints total_of].
    unfold mst_with_constraints. rewrite R2, R3, R4. vm_compute. reflexivity.
  - split; [cbn; lia|]. exists [canon (2, 0)%nat; canon (2, 1)%nat]. split; [apply tri_tree; auto|]. intros T' [<-|[]] S. specialize (S (0, 1)%nat). cbn in S.
    destruct S as [_ S]. destruct S as [S|[S|[]]]; [now left|discriminate|discriminate].
Qed.

(** *** C172: dropout_prob is checked only when a second tree is searched for *)
Theorem C172_dropout_checked : forall n m w k d masks, matrix_is n m w -> (2 <= n)%nat -> (2 <= k)%nat -> ~ (0 <= d < 1) ->
  topk_mst n n m k d masks true = Err.
Proof. exact topk_bad_dropout. Qed.
Theorem C172_dropout_unchecked_refuted : forall n m w d masks, matrix_is n m w -> (0 < n)%nat -> exists M, topk_mst n n m 1 d masks true = Ok [M].
Proof. exact topk_one. Qed.

(** the hypotheses are met: a triangle has three trees, so the third request finds
    the last tree and a fourth finds nothing *)
Example C53_ex : exists out, topk_mst 3 3 tri 4 0 (fun _ _ _ => false) true = Ok out /\
  forall a b c, (a, b, c) = (0, 1, 2)%nat \/ (a, b, c) = (1, 0, 2)%nat \/ (a, b, c) = (2, 0, 1)%nat ->
  (exists T', In T' out /\ same_tree [canon (a, b); canon (a, c)] T') \/ length out = 4%nat.
Proof.
  destruct (C53_topk_best 3 tri (fun i j => INR (i + j)) 4 (fun _ _ _ => false) (tri_matrix 3)) as (out & EO & _ & _ & _ & _ & HC); [lia|lia|].
  exists out. split; [exact EO|]. intros a b c H. destruct (HC _ (tri_tree a b c H)) as [K|[K _]]; [now left|now right].
Qed.
Example C169_ex : exists M, topk_mst 3 3 tri 3 0 (fun _ _ _ => false) false = Ok [M] /\ 5 <= weight (fun i j => INR (i + j)) M.
Proof.
  destruct (C169_maximize_returns_one_refuted 3 tri (fun i j => INR (i + j)) 3 (fun _ _ _ => false) (tri_matrix 3)) as (M & EM & _ & MX); [lia|lia|].
  exists M. split; [exact EM|]. specialize (MX _ (tri_tree 2 0 1 ltac:(auto))). eapply Rle_trans; [|exact MX]. cbn. lra.
Qed.
Print Assumptions C53_topk_best.
Print Assumptions C53_topk_complete.
Print Assumptions C53_topk_checks.
Print Assumptions C168_kruskal_min.
Print Assumptions C168_kruskal_max.
Print Assumptions C168_kruskal_checks.
Print Assumptions C169_maximize_returns_one_refuted.
Print Assumptions C170_dropout_trees.
Print Assumptions C171_dropout_loses_trees_refuted.
Print Assumptions C172_dropout_checked.
Print Assumptions C172_dropout_unchecked_refuted.
