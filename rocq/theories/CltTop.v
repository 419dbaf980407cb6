(** Chow-Liu trees: likelihood, sampling and most probable completions. *)
From Coq Require Import List Arith ZArith Bool Reals Lia Lra Permutation.
From Verif Require Import Base CircuitModel LeafModel LeafProofs SampleModel SampleSpec SampleExp LayerProofs HistModel HistProofs CltModel CltSpec CltDfs CltElim.
Import ListNotations.
Local Open Scope R_scope.

(** *** iterated sums *)
Lemma fsum_fupd K v rest g x : fsum K (v :: rest) g x = bsum K (fun k => fsum K rest g (fupd x v k)).
Proof. reflexivity. Qed.
Lemma fupd_comm x a b i j : a <> b -> fupd (fupd x a i) b j = fupd (fupd x b j) a i.
Proof.
  intros H. apply functional_extensionality. intros k. unfold fupd.
  destruct (Nat.eqb_spec k a), (Nat.eqb_spec k b); congruence.
Qed.
Lemma fupd_id x i : fupd x i (x i) = x.
Proof. apply functional_extensionality. intros k. unfold fupd. destruct (Nat.eqb_spec k i); congruence. Qed.
Lemma fsum_perm K l1 l2 g : Permutation l1 l2 -> forall x, fsum K l1 g x = fsum K l2 g x.
Proof.
  induction 1 as [|v l1 l2 _ IH|a b l|l1 l2 l3 _ IH1 _ IH2]; intros x.
  - reflexivity.
  - rewrite !fsum_fupd. apply bsum_ext. intros k _. apply IH.
  - destruct (Nat.eq_dec a b) as [->|N]; [reflexivity|]. rewrite !fsum_fupd.
    rewrite (bsum_ext K (fun k => fsum K (a :: l) g (fupd x b k)) (fun k => bsum K (fun k' => fsum K l g (fupd (fupd x b k) a k')))) by reflexivity.
    rewrite (bsum_ext K (fun k => fsum K (b :: l) g (fupd x a k)) (fun k => bsum K (fun k' => fsum K l g (fupd (fupd x a k) b k')))) by reflexivity.
    rewrite bsum_swap. apply bsum_ext. intros k _. apply bsum_ext. intros k' _. now rewrite fupd_comm by congruence.
  - rewrite IH1. apply IH2.
Qed.
Lemma fsum_scal K l a g x : fsum K l (fun y => a * g y) x = a * fsum K l g x.
Proof.
  revert x. induction l as [|v l IH]; intros x; [reflexivity|]. rewrite !fsum_fupd, <- bsum_scal.
  apply bsum_ext. intros k _. apply IH.
Qed.
Lemma fsum_ext K l g h x : (forall y, g y = h y) -> fsum K l g x = fsum K l h x.
Proof. intros E. revert x. induction l as [|v l IH]; intros x; [apply E|]. rewrite !fsum_fupd. apply bsum_ext. auto. Qed.

(** [g] reads only the first [F] features *)
Definition reads (F : nat) (g : (nat -> nat) -> R) : Prop :=
  forall y z, (forall i, (i < F)%nat -> y i = z i) -> g y = g z.

Section Aggs.
  Variables (K : nat) (ob : nat -> option nat).

  Lemma aggs_fsum l g x : (forall i v, In i l -> ob i = Some v -> x i = v) -> NoDup l ->
    aggs K false ob l g x = fsum K (filter (fun i => match ob i with None => true | Some _ => false end) l) g x.
  Proof.
    revert x. induction l as [|i l IH]; intros x H N; [reflexivity|]. apply NoDup_cons_iff in N. destruct N as [Ni N].
    cbn [aggs filter]. unfold agg. destruct (ob i) as [v|] eqn:E.
    - rewrite <- (H i v (or_introl eq_refl) E), fupd_id. apply IH; auto. intros j w Hj. apply H. now right.
    - rewrite fsum_fupd. apply bsum_ext. intros k _. apply IH; auto. intros j w Hj Ej.
      rewrite fupd_other by congruence. apply H; [now right|assumption].
  Qed.
  Lemma aggs_local mpe F l g x x' : reads F g -> (forall i, (i < F)%nat -> ~ In i l -> x i = x' i) ->
    aggs K mpe ob l g x = aggs K mpe ob l g x'.
  Proof.
    intros Hg. revert x x'. induction l as [|i l IH]; intros x x' H.
    - cbn. apply Hg. intros j Hj. apply H; [assumption|intros []].
    - cbn [aggs]. apply agg_ext. intros k. apply IH. intros j Hj Hn. unfold fupd.
      destruct (Nat.eqb_spec j i); [reflexivity|]. apply H; [assumption|]. intros [?|?]; [congruence|contradiction].
  Qed.
  Lemma aggs_zero l g h x : (forall y, 0 <= g y) -> aggs K false ob l g x = 0 -> aggs K false ob l (fun y => g y * h y) x = 0.
  Proof.
    intros Hg. assert (forall l x, 0 <= aggs K false ob l g x) as NN.
    { clear l x. induction l as [|i l IH]; intros x; [apply Hg|]. cbn [aggs]. unfold agg. destruct (ob i); [apply IH|].
      apply bsum_nonneg. intros; apply IH. }
    revert x. induction l as [|i l IH]; intros x E; cbn [aggs] in *.
    - rewrite E. ring.
    - unfold agg in *. destruct (ob i) as [v|]; [now apply IH|]. apply bsum_zero. intros k Hk. apply IH.
      apply (bsum_nonneg_zero K (fun k => aggs K false ob l g (fupd x i k))); auto.
  Qed.
  (** maxima dominate *)
  Lemma aggs_max l g x y : (forall i, In i l -> (y i < K)%nat /\ forall v, ob i = Some v -> y i = v) ->
    (forall i, ~ In i l -> x i = y i) -> g y <= aggs K true ob l g x.
  Proof.
    revert x. induction l as [|i l IH]; intros x H E.
    - cbn. replace x with y; [lra|]. symmetry. apply functional_extensionality. intros i. apply E. intros [].
    - cbn [aggs]. assert (g y <= aggs K true ob l g (fupd x i (y i))) as L.
      { apply IH; [intros; apply H; now right|]. intros j Hj. unfold fupd. destruct (Nat.eqb_spec j i); [congruence|].
        apply E. intros [?|?]; [congruence|contradiction]. }
      destruct (H i (or_introl eq_refl)) as [Hk Ho]. unfold agg. destruct (ob i) as [v|].
      + now rewrite (Ho v eq_refl) in L.
      + eapply Rle_trans; [exact L|]. apply (rmaxn_ge K (fun k => aggs K true ob l g (fupd x i k))). assumption.
  Qed.
End Aggs.

Lemma lprod_seq n f : lprod (seq 0 n) f = bprod n f.
Proof. induction n as [|n IH]; [reflexivity|]. rewrite seq_S, lprod_app, IH. cbn. ring. Qed.

(** *** one entry of a rooted tree *)
Section Tree.
  Variables (K : nat) (parents : list Z) (cpt : nat -> nat -> nat -> lval) (root : nat) (pre : list nat).
  Hypothesis K_pos : (0 < K)%nat.
  Hypothesis T : rooted_tree parents root.
  Hypothesis G : good_order parents root pre.
  Let F := length parents.
  Let q : nat -> nat -> nat -> R := fun i a b => pr (cpt i a b).

  Lemma root_par : par parents root = (-1)%Z.
  Proof. apply T. Qed.

  Lemma J_tree x : J parents cpt pre x = tree_prob parents q x.
  Proof.
    unfold J, tree_prob. rewrite (lprod_perm pre (seq 0 F)).
    - rewrite lprod_seq. apply bprod_ext. intros i _. unfold cond, par, q. reflexivity.
    - destruct G as (N & H & _). apply NoDup_Permutation; [assumption|apply seq_NoDup|].
      intros i. rewrite in_seq, H. unfold F. lia.
  Qed.
  Lemma tree_prob_reads : reads F (tree_prob parents q).
  Proof.
    intros y z H. unfold tree_prob. apply bprod_ext. intros i Hi. rewrite (H i) by assumption.
    destruct (Z.eqb_spec (nth i parents (-1)%Z) (-1)); [reflexivity|].
    destruct (tree_parent parents root i T Hi) as [[_ E]|[_ (p & Hp & E)]]; unfold par in E; [contradiction|].
    rewrite E, Nat2Z.id, H by assumption. reflexivity.
  Qed.
  Lemma tree_prob_nonneg x : 0 <= tree_prob parents q x.
  Proof. unfold tree_prob. apply bprod_nonneg. intros i _. destruct (Z.eqb _ _); apply pr_nonneg. Qed.

  (** sums over the missing features, in any order *)
  Lemma aggs_missing ob vs g x : missing_of F ob vs -> (forall i v, (i < F)%nat -> ob i = Some v -> x i = v) ->
    aggs K false ob pre g x = fsum K vs g x.
  Proof.
    intros [N M] H. destruct G as (Np & Hp & _). rewrite aggs_fsum; [|intros i v Hi; apply H, Hp, Hi|assumption].
    apply fsum_perm. apply NoDup_Permutation; [now apply NoDup_filter|assumption|].
    intros i. rewrite filter_In, Hp, M. destruct (ob i); intuition congruence.
  Qed.

  Lemma fast_spec x : pr (fast_ll parents cpt F x) = tree_prob parents q x.
  Proof. unfold fast_ll, tree_prob. rewrite pr_ladds. apply bprod_ext. intros i _. cbv zeta. unfold par. destruct (Z.eqb _ _); reflexivity. Qed.

  Lemma slow_aggs ob x : pr (slow_ll K parents cpt pre ob) = aggs K false ob pre (tree_prob parents q) x.
  Proof.
    unfold slow_ll. cbv zeta. rewrite (root_of_tree _ _ T), bp_bps. pose proof G as (N & _ & O & l & E).
    rewrite E. cbn [bps fold_right]. rewrite (step_root K parents cpt root false ob root_par).
    change (fold_right _ bp0 l) with (bps K parents cpt false ob l). rewrite E in N, O.
    transitivity (aggs K false ob (root :: l) (J parents cpt (root :: l)) x).
    - rewrite (elim_all K parents cpt root false ob K_pos root_par l x N O). unfold agg.
      destruct (ob root); [apply pr_ladd|]. rewrite pr_lse. apply bsum_ext. intros k _. apply pr_ladd.
    - rewrite <- E. replace (J parents cpt pre) with (tree_prob parents q); [reflexivity|].
      apply functional_extensionality. intros y. symmetry. apply J_tree.
  Qed.
  Lemma slow_spec ob vs x : missing_of F ob vs -> (forall i v, (i < F)%nat -> ob i = Some v -> x i = v) ->
    pr (slow_ll K parents cpt pre ob) = fsum K vs (tree_prob parents q) x.
  Proof. intros M H. rewrite (slow_aggs ob x). now apply aggs_missing. Qed.

  (** *** normalised conditionals *)
  Definition cpt_normalised : Prop := forall i, (i < F)%nat ->
    if Z.eqb (nth i parents (-1)%Z) (-1) then bsum K (fun k => q i k 0%nat) = 1
    else forall xp, (xp < K)%nat -> bsum K (fun k => q i k xp) = 1.
  Lemma bps_one l : cpt_normalised -> (forall i, In i l -> (i < F)%nat) -> forall j k, (k < K)%nat ->
    pr (fst (bps K parents cpt false (fun _ => None) l) j k) = 1.
  Proof.
    intros C. induction l as [|i l IH]; intros H j k Hk; [cbn; apply exp_0|].
    cbn [bps fold_right]. specialize (IH ltac:(intros; apply H; now right)).
    change (fold_right _ bp0 l) with (bps K parents cpt false (fun _ => None) l).
    assert (i < F)%nat as Hi by (apply H; now left).
    destruct (tree_parent parents root i T Hi) as [[-> _]|[_ (p & Hp & E)]].
    - rewrite (step_root K parents cpt root false _ root_par). now apply IH.
    - rewrite (step_fst K parents cpt false _ K_pos _ i p) by assumption.
      destruct (Nat.eqb j p); [|now apply IH]. rewrite pr_ladd, IH by assumption.
      rewrite (pr_msg K cpt false _ K_pos). unfold agg.
      specialize (C i Hi). fold (par parents i) in C. rewrite E in C. destruct (Z.eqb_spec (Z.of_nat p) (-1)); [lia|].
      rewrite Rmult_1_l, <- (C k Hk). apply bsum_ext. intros k' Hk'. rewrite IH by assumption. apply Rmult_1_r.
  Qed.
  Lemma total_one vs x : cpt_normalised -> missing_of F (fun _ => None) vs -> fsum K vs (tree_prob parents q) x = 1.
  Proof.
    intros C M. rewrite <- (slow_spec (fun _ => None) vs x M) by discriminate.
    unfold slow_ll. cbv zeta. rewrite pr_lse, (root_of_tree _ _ T), bp_bps.
    pose proof T as (R1 & R2 & _). pose proof (C root R1) as CR. rewrite R2 in CR. cbn in CR. rewrite <- CR.
    apply bsum_ext. intros k Hk. rewrite pr_ladd, bps_one; auto; [apply Rmult_1_r|].
    intros i Hi. now apply G.
  Qed.

  (** *** sampling *)
  Lemma assign_exp D ob g l : forall P a, pre = P ++ l -> In root P ->
    aggs K false ob l (tree_prob parents q) a <> 0 ->
    expects D (assign K parents cpt false ob (bps K parents cpt false ob pre) root l a) g
      (aggs K false ob l (fun y => tree_prob parents q y * g y) a / aggs K false ob l (tree_prob parents q) a).
  Proof.
    pose proof G as (N & _ & O & _).
    assert (J parents cpt pre = tree_prob parents q) as EJ by (apply functional_extensionality; intros y; apply J_tree).
    induction l as [|i l IH]; intros P a E Hroot Z.
    - cbn in *. field. assumption.
    - rewrite E in N, O.
      assert (i <> root) as Ni by (intros ->; apply NoDup_remove_2 in N; apply N; rewrite in_app_iff; now left).
      destruct (O P i l eq_refl) as [?|(p & Hp & Ep)]; [contradiction|].
      assert (forall b : nat, pre = (P ++ [i]) ++ l /\ In root (P ++ [i])) as EP.
      { intros _. split; [now rewrite E, <- app_assoc|rewrite in_app_iff; now left]. }
      cbn [assign]. destruct (Nat.eqb_spec i root); [contradiction|]. rewrite Ep, Nat2Z.id.
      cbn [aggs] in *. unfold agg in *. destruct (ob i) as [v|].
      + apply (IH (P ++ [i])); [apply (EP 0%nat)|apply (EP 0%nat)|assumption].
      + set (Zk k := aggs K false ob l (tree_prob parents q) (fupd a i k)) in *.
        set (Gk k := aggs K false ob l (fun y => tree_prob parents q y * g y) (fupd a i k)) in *.
        set (V := value parents cpt (bps K parents cpt false ob l) P a).
        set (lg k := ladd (cpt i k (a p)) (fst (bps K parents cpt false ob pre) i k)).
        assert (forall k, Zk k = V * pr (lg k)) as EZ.
        { intros k. unfold Zk, lg. rewrite <- EJ. destruct (EP 0%nat) as [-> E2].
          rewrite (elim_suffix K parents cpt root false ob K_pos root_par l (P ++ [i])).
          - rewrite (value_snoc K parents cpt root false ob K_pos root_par P i l k a N O Ni p Ep Hp).
            rewrite pr_ladd. fold V. rewrite <- app_assoc. cbn [app].
            rewrite (bps_stable K parents cpt root false ob K_pos root_par P i l N O). reflexivity.
          - destruct P; discriminate.
          - now rewrite <- app_assoc.
          - now rewrite <- app_assoc.
          - assumption. }
        assert (bsum K Zk = V * bsum K (fun k => pr (lg k))) as ES.
        { rewrite <- bsum_scal. apply bsum_ext. auto. }
        assert (V <> 0) as HV by (intros H0; rewrite H0, Rmult_0_l in ES; contradiction).
        assert (0 < bsum K (fun k => pr (lg k))) as HS.
        { destruct (bsum_nonneg K (fun k => pr (lg k))) as [H0|H0]; [intros; apply pr_nonneg|assumption|].
          rewrite <- H0, Rmult_0_r in ES. contradiction. }
        pose proof (sample_logits_post D K lg HS (fun k => Gk k / Zk k)) as SP. cbv beta in SP.
        replace (bsum K (fun k => pr (lg k) / bsum K (fun j => pr (lg j)) * (Gk k / Zk k))) with (bsum K Gk / bsum K Zk) in SP.
        * apply (expects_bind _ _ _ _ _ _ SP). intros k Hk. apply (IH (P ++ [i])); [apply (EP 0%nat)|apply (EP 0%nat)|].
          unfold sample_logits in Hk. destruct (Rlt_dec _ _); [|contradiction].
          inversion Hk as [|? ? ? j ? Hj Hw Ho|]; subst. inversion Ho; subst. fold (Zk k). rewrite EZ. intros H0. apply Hw.
          apply Rmult_integral in H0. destruct H0 as [H0|H0]; [contradiction|]. rewrite H0. unfold Rdiv. ring.
        * rewrite <- bsum_div. apply bsum_ext. intros k Hk. rewrite ES. destruct (Req_dec (pr (lg k)) 0) as [H0|H0].
          -- rewrite H0. assert (Gk k = 0) as ->; [|unfold Rdiv; ring].
             unfold Gk. apply aggs_zero; [apply tree_prob_nonneg|]. fold (Zk k). rewrite EZ, H0. ring.
          -- rewrite EZ. field. repeat split; auto. lra.
  Qed.

  Lemma clt_assign_exp D ob vs x junk g : missing_of F ob vs -> (forall i v, (i < F)%nat -> ob i = Some v -> x i = v) ->
    reads F g -> fsum K vs (tree_prob parents q) x <> 0 ->
    expects D (clt_assign K parents cpt false junk pre ob) g
      (fsum K vs (fun y => tree_prob parents q y * g y) x / fsum K vs (tree_prob parents q) x).
  Proof.
    intros M Hx Hg HZ. 
    assert (reads F (fun y => tree_prob parents q y * g y)) as R1.
    { intros y z H. rewrite (tree_prob_reads y z H), (Hg y z H). reflexivity. }
    rewrite <- !(aggs_missing ob vs) in * by assumption.
    assert (forall i, (i < F)%nat -> ~ In i pre -> x i = junk i) as Hj by (intros i Hi Hn; exfalso; apply Hn, G, Hi).
    rewrite (aggs_local K ob false F pre _ x junk R1 Hj), (aggs_local K ob false F pre _ x junk tree_prob_reads Hj) in *.
    pose proof G as (N & _ & O & l & E). 
    assert (forall a, assign K parents cpt false ob (bps K parents cpt false ob pre) root pre a = assign K parents cpt false ob (bps K parents cpt false ob pre) root l a) as ES.
    { intros a. rewrite E at 2. cbn [assign]. now rewrite Nat.eqb_refl. }
    unfold clt_assign. cbv zeta. rewrite (root_of_tree _ _ T), bp_bps.
    assert (J parents cpt pre = tree_prob parents q) as EJ by (apply functional_extensionality; intros y; apply J_tree).
    assert (forall k, aggs K false ob l (tree_prob parents q) (fupd junk root k) =
              pr (ladd (cpt root k 0%nat) (fst (bps K parents cpt false ob pre) root k))) as EZ.
    { intros k. rewrite <- EJ. rewrite E in N, O |- *. rewrite pr_ladd. cbn [bps fold_right].
      rewrite (step_root K parents cpt root false ob root_par). 
      change (root :: l) with ([root] ++ l) in N, O |- *.
      rewrite (elim_suffix K parents cpt root false ob K_pos root_par l [root]); [|discriminate|assumption|assumption|now left].
      unfold value. cbn [lprod]. rewrite (cond_root parents cpt root root_par), fupd_same. unfold bps. ring. }
    assert (forall h, aggs K false ob pre h junk = agg K false ob root (fun k => aggs K false ob l h (fupd junk root k))) as EA.
    { intros h. now rewrite E. }
    rewrite !EA in *. clear EA. unfold agg in *. destruct (ob root) as [v|].
    - cbn [pbind]. rewrite ES. apply (assign_exp D ob g l [root]); auto. now left.
    - set (Zk k := aggs K false ob l (tree_prob parents q) (fupd junk root k)) in *.
      set (Gk k := aggs K false ob l (fun y => tree_prob parents q y * g y) (fupd junk root k)) in *.
      set (lg k := ladd (cpt root k 0%nat) (fst (bps K parents cpt false ob pre) root k)) in *.
      change (forall k, Zk k = pr (lg k)) in EZ.
      assert (bsum K Zk = bsum K (fun k => pr (lg k))) as EB by (apply bsum_ext; intros k _; apply EZ).
      assert (0 < bsum K (fun k => pr (lg k))) as HS.
      { destruct (bsum_nonneg K (fun k => pr (lg k))) as [H0|H0]; [intros; apply pr_nonneg|assumption|]. congruence. }
      pose proof (sample_logits_post D K lg HS (fun k => Gk k / Zk k)) as SP. cbv beta in SP.
      replace (bsum K (fun k => pr (lg k) / bsum K (fun j => pr (lg j)) * (Gk k / Zk k))) with (bsum K Gk / bsum K Zk) in SP.
      + eapply expects_bind; [exact SP|]. intros k Hk. rewrite ES. apply (assign_exp D ob g l [root]); [assumption|now left|].
        unfold sample_logits in Hk. destruct (Rlt_dec _ _); [|contradiction].
        inversion Hk as [|? ? ? j ? Hj' Hw Ho|]; subst. inversion Ho; subst. fold (Zk k). rewrite EZ. intros H0. apply Hw.
        fold (lg k) in H0. rewrite H0. unfold Rdiv. ring.
      + rewrite <- bsum_div. apply bsum_ext. intros k Hk. rewrite EB. destruct (Req_dec (pr (lg k)) 0) as [H0|H0].
        * rewrite H0. assert (Gk k = 0) as ->; [|unfold Rdiv; ring].
          unfold Gk. apply aggs_zero; [apply tree_prob_nonneg|]. fold (Zk k). rewrite EZ. exact H0.
        * rewrite EZ. fold (lg k). field. split; auto. lra.
  Qed.

  (** *** most probable completions *)
  Lemma assign_max ob l : (forall i v, (i < F)%nat -> ob i = Some v -> (v < K)%nat) -> forall P a, pre = P ++ l -> In root P ->
    exists y, assign K parents cpt true ob (bps K parents cpt true ob pre) root l a = Ret y /\
      (forall i, ~ In i l -> y i = a i) /\ (forall i, In i l -> (y i < K)%nat /\ forall v, ob i = Some v -> y i = v) /\
      tree_prob parents q y = aggs K true ob l (tree_prob parents q) a.
  Proof.
    intros Hob. pose proof G as (N & _ & O & _).
    assert (J parents cpt pre = tree_prob parents q) as EJ by (apply functional_extensionality; intros y; apply J_tree).
    induction l as [|i l IH]; intros P a E Hroot.
    - exists a. cbn. repeat split; auto; contradiction.
    - rewrite E in N, O.
      assert (i <> root) as Ni by (intros ->; apply NoDup_remove_2 in N; apply N; rewrite in_app_iff; now left).
      destruct (O P i l eq_refl) as [?|(p & Hp & Ep)]; [contradiction|].
      assert (~ In i l) as Nil by (apply NoDup_remove_2 in N; rewrite in_app_iff in N; tauto).
      assert (pre = (P ++ [i]) ++ l) as E1 by now rewrite E, <- app_assoc.
      assert (In root (P ++ [i])) as E2 by (rewrite in_app_iff; now left).
      assert (forall v, (v < K)%nat -> (forall w, ob i = Some w -> v = w) ->
          (exists y, assign K parents cpt true ob (bps K parents cpt true ob pre) root l (fupd a i v) = Ret y /\
            (forall j, ~ In j (i :: l) -> y j = a j) /\
            (forall j, In j (i :: l) -> (y j < K)%nat /\ forall w, ob j = Some w -> y j = w) /\
            tree_prob parents q y = aggs K true ob l (tree_prob parents q) (fupd a i v))) as ST.
      { intros v Hv Hw. destruct (IH (P ++ [i]) (fupd a i v) E1 E2) as (y & Y1 & Y2 & Y3 & Y4). exists y.
        split; [assumption|]. split; [|split; [|assumption]].
        - intros j Hj. rewrite Y2 by (intros H; apply Hj; now right). apply fupd_other. intros ->. apply Hj. now left.
        - intros j [<-|Hj]; [|now apply Y3]. rewrite Y2 by assumption. rewrite fupd_same. auto. }
      cbn [assign]. destruct (Nat.eqb_spec i root); [contradiction|]. rewrite Ep, Nat2Z.id.
      cbn [aggs]. unfold agg. destruct (ob i) as [v|] eqn:Eo.
      + apply ST; [apply (Hob i v); [|assumption]; apply G; rewrite E; apply in_elt|]. intros w [= ->]. reflexivity.
      + cbv iota.
        assert (snd (bps K parents cpt true ob pre) i (a p) = argmax K (fun xi => score cpt (bps K parents cpt true ob l) i xi (a p))) as ->.
        { rewrite E. rewrite (bk_stable K parents cpt root true ob K_pos root_par P i l p N O Ni Ep). now rewrite Eo. }
        set (m := argmax _ _). destruct (ST m) as (y & Y1 & Y2 & Y3 & Y4); [now apply argmax_lt|discriminate|].
        exists y. split; [assumption|]. split; [assumption|]. split; [assumption|]. rewrite Y4.
        set (V := value parents cpt (bps K parents cpt true ob l) P a).
        assert (forall k, aggs K true ob l (tree_prob parents q) (fupd a i k) = V * pr (score cpt (bps K parents cpt true ob l) i k (a p))) as EZ.
        { intros k. rewrite <- EJ. rewrite E1.
          rewrite (elim_suffix K parents cpt root true ob K_pos root_par l (P ++ [i])).
          - rewrite (value_snoc K parents cpt root true ob K_pos root_par P i l k a N O Ni p Ep Hp). unfold score.
            rewrite pr_ladd. reflexivity.
          - destruct P; discriminate.
          - now rewrite <- app_assoc.
          - now rewrite <- app_assoc.
          - assumption. }
        rewrite EZ. rewrite (rmaxn_ext K _ (fun k => V * pr (score cpt (bps K parents cpt true ob l) i k (a p)))) by auto.
        rewrite rmaxn_scal by apply value_nonneg. f_equal. unfold m.
        apply (argmax_rmaxn K (fun xi => score cpt (bps K parents cpt true ob l) i xi (a p))). assumption.
  Qed.

  Lemma clt_assign_max ob junk : (forall i v, (i < F)%nat -> ob i = Some v -> (v < K)%nat) ->
    exists y, clt_assign K parents cpt true junk pre ob = Ret y /\ agrees F K ob y /\
      forall z, agrees F K ob z -> tree_prob parents q z <= tree_prob parents q y.
  Proof.
    intros Hob. pose proof G as (N & HF & O & l & E).
    assert (J parents cpt pre = tree_prob parents q) as EJ by (apply functional_extensionality; intros y; apply J_tree).
    unfold clt_assign. cbv zeta. rewrite (root_of_tree _ _ T), bp_bps.
    set (s := bps K parents cpt true ob pre).
    set (lg k := ladd (cpt root k 0%nat) (fst s root k)).
    set (xr := match ob root with Some v => v | None => argmax K lg end).
    assert ((match ob root with Some v => Ret v | None => sample_logits true K lg end) = Ret xr) as ->.
    { unfold xr. destruct (ob root); reflexivity. }
    cbn [pbind].
    assert (assign K parents cpt true ob s root pre (fupd junk root xr) = assign K parents cpt true ob s root l (fupd junk root xr)) as ->.
    { rewrite E at 1. cbn [assign]. now rewrite Nat.eqb_refl. }
    destruct (assign_max ob l Hob [root] (fupd junk root xr)) as (y & Y1 & Y2 & Y3 & Y4); [assumption|now left|].
    assert (~ In root l) as Nr by (rewrite E in N; inversion N; assumption).
    assert (y root = xr) as Yr by (rewrite Y2 by assumption; apply fupd_same).
    assert (xr < K)%nat as Hxr. { unfold xr. destruct (ob root) as [v|] eqn:Eo; [|now apply argmax_lt]. apply (Hob root v); [|assumption]. apply T. }
    exists y. split; [exact Y1|]. split.
    - intros i Hi. apply HF in Hi. rewrite E in Hi. destruct Hi as [<-|Hi]; [|now apply Y3]. rewrite Yr.
      split; [assumption|]. intros v Hv. unfold xr. now rewrite Hv.
    - intros z Hz.
      assert (tree_prob parents q z <= aggs K true ob pre (tree_prob parents q) (fun i => if Nat.ltb i F then junk i else z i)) as L1.
      { apply aggs_max; [intros i Hi; apply Hz; now apply HF|]. intros i Hi. destruct (Nat.ltb_spec i F) as [Hl|Hl]; [|reflexivity].
        exfalso. apply Hi. now apply HF. }
      rewrite (aggs_local K ob true F pre _ _ junk tree_prob_reads) in L1.
      2:{ intros i Hi _. destruct (Nat.ltb_spec i F); [reflexivity|lia]. }
      eapply Rle_trans; [exact L1|]. rewrite Y4, E. cbn [aggs]. unfold agg. unfold xr.
      destruct (ob root) as [v|]; [lra|]. right. symmetry.
      assert (forall k, aggs K true ob l (tree_prob parents q) (fupd junk root k) = pr (lg k)) as EZ.
      { intros k. rewrite <- EJ. unfold lg, s. rewrite E in N, O |- *. rewrite pr_ladd. cbn [bps fold_right].
        rewrite (step_root K parents cpt root true ob root_par).
        change (root :: l) with ([root] ++ l) in N, O |- *.
        rewrite (elim_suffix K parents cpt root true ob K_pos root_par l [root]); [|discriminate|assumption|assumption|now left].
        unfold value. cbn [lprod]. rewrite (cond_root parents cpt root root_par), fupd_same. unfold bps. ring. }
      rewrite EZ. rewrite (rmaxn_ext K _ (fun k => pr (lg k))) by auto. now apply argmax_rmaxn.
  Qed.
End Tree.
