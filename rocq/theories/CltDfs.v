(** The pre-order of a rooted tree: every node once, parents before children. *)
From Coq Require Import List Arith ZArith Bool Reals Lia Permutation.
From Verif Require Import Base CltModel CltSpec.
Import ListNotations.

Lemma ninsert_perm x l : Permutation (x :: l) (ninsert x l).
Proof.
  induction l as [|y l IH]; cbn; [reflexivity|]. destruct (Nat.leb x y); [reflexivity|].
  rewrite perm_swap. now constructor.
Qed.
Lemma nsort_perm l : Permutation l (nsort l).
Proof. induction l as [|x l IH]; cbn; [constructor|]. rewrite <- ninsert_perm. now constructor. Qed.

Lemma push_all (l rest : list nat) : fold_left (fun st ch => ch :: st) (rev l) rest = l ++ rest.
Proof. rewrite <- fold_left_rev_right, rev_involutive. induction l as [|a l IH]; cbn; [reflexivity|now rewrite IH]. Qed.

Lemma children_spec parents v i : In i (children parents v) <-> (i < length parents)%nat /\ par parents i = Z.of_nat v.
Proof.
  unfold children. rewrite filter_In, in_seq, Z.eqb_eq. split; intros [H1 H2]; (split; [lia|assumption]).
Qed.
Lemma children_NoDup parents v : NoDup (children parents v).
Proof. apply NoDup_filter, seq_NoDup. Qed.
Lemma roots_spec parents i : In i (roots parents) <-> (i < length parents)%nat /\ par parents i = (-1)%Z.
Proof. unfold roots. rewrite filter_In, in_seq, Z.eqb_eq. split; intros [H1 H2]; (split; [lia|assumption]). Qed.
Lemma roots_NoDup parents : NoDup (roots parents).
Proof. apply NoDup_filter, seq_NoDup. Qed.

(** [pre] lists parents before children *)
Definition ordered (parents : list Z) (root : nat) (pre : list nat) : Prop :=
  forall P i T, pre = P ++ i :: T -> i = root \/ exists p, In p P /\ par parents i = Z.of_nat p.

Record inv (parents : list Z) (root : nat) (pre stack : list nat) : Prop := mkInv {
  i_nodup : NoDup (pre ++ stack);
  i_range : forall i, In i (pre ++ stack) -> (i < length parents)%nat;
  i_par : forall i, In i (pre ++ stack) -> i = root \/ exists p, In p pre /\ par parents i = Z.of_nat p;
  i_ord : ordered parents root pre;
  i_clos : forall p i, In p pre -> (i < length parents)%nat -> par parents i = Z.of_nat p -> In i (pre ++ stack);
  i_root : In root (pre ++ stack) }.

Lemma snoc_split {A} (l : list A) a P i T : l ++ [a] = P ++ i :: T ->
  (exists T', T = T' ++ [a] /\ l = P ++ i :: T') \/ (T = [] /\ P = l /\ i = a).
Proof.
  intros E. destruct (@exists_last _ (i :: T)) as (T' & b & EQ); [discriminate|].
  rewrite EQ, app_assoc in E. apply app_inj_tail in E. destruct E as [-> ->].
  destruct T' as [|c T']; cbn in EQ.
  - injection EQ as -> ->. right. rewrite app_nil_r. auto.
  - injection EQ as -> ->. left. exists T'. auto.
Qed.

Lemma inv_step parents root pre node rest : par parents root = (-1)%Z ->
  inv parents root pre (node :: rest) -> inv parents root (pre ++ [node]) (nsort (children parents node) ++ rest).
Proof.
  intros Hr [N R P O C Rt].
  assert (forall i, In i ((pre ++ [node]) ++ nsort (children parents node) ++ rest) <->
            In i (pre ++ node :: rest) \/ (i < length parents)%nat /\ par parents i = Z.of_nat node) as E.
  { intros i. rewrite <- children_spec. rewrite !in_app_iff. cbn [In].
    assert (In i (nsort (children parents node)) <-> In i (children parents node)) as ->.
    { split; apply Permutation_in; [symmetry|]; apply nsort_perm. }
    tauto. }
  split.
  - assert (Permutation ((pre ++ node :: rest) ++ children parents node)
        ((pre ++ [node]) ++ nsort (children parents node) ++ rest)) as PM.
    { rewrite <- !app_assoc. apply Permutation_app_head. cbn. constructor. rewrite Permutation_app_comm.
      apply Permutation_app_tail, nsort_perm. }
    apply (Permutation_NoDup PM). clear PM.
    assert (forall i, In i (pre ++ node :: rest) -> ~ In i (children parents node)) as D.
    { intros i Hi Hc. apply children_spec in Hc. destruct Hc as [_ Hc]. destruct (P i Hi) as [->|(p & Hp & Ep)].
      - rewrite Hr in Hc. lia.
      - assert (p = node) as -> by lia. apply NoDup_remove_2 in N. apply N. rewrite in_app_iff. now left. }
    clear - N D. induction (pre ++ node :: rest) as [|a l IH]; [apply children_NoDup|].
    cbn. apply NoDup_cons_iff in N. destruct N as [Na Nl]. constructor.
    + rewrite in_app_iff. intros [H|H]; [contradiction|]. apply (D a); [now left|assumption].
    + apply IH; [assumption|]. intros i Hi. apply D. now right.
  - intros i Hi. apply E in Hi. destruct Hi as [Hi|[Hi _]]; [now apply R|assumption].
  - intros i Hi. apply E in Hi. destruct Hi as [Hi|[_ Hi]].
    + destruct (P i Hi) as [->|(p & Hp & Ep)]; [now left|right]. exists p. split; [|assumption].
      rewrite in_app_iff. now left.
    + right. exists node. split; [|assumption]. rewrite in_app_iff. right. now left.
  - intros Q i T EQ. destruct (snoc_split _ _ _ _ _ EQ) as [(T' & -> & E')|(-> & -> & ->)].
    + exact (O _ _ _ E').
    + apply P. rewrite in_app_iff. right. now left.
  - intros p i Hp Hi Ep. apply E. rewrite in_app_iff in Hp. destruct Hp as [Hp|[<-|[]]].
    + left. eapply C; eassumption.
    + right. auto.
  - apply E. now left.
Qed.

Lemma NoDup_range_length (l : list nat) n : NoDup l -> (forall i, In i l -> (i < n)%nat) -> (length l <= n)%nat.
Proof.
  intros N H. rewrite <- (seq_length n 0). apply NoDup_incl_length; [assumption|].
  intros i Hi. apply in_seq. specialize (H i Hi). lia.
Qed.

Lemma dfs_inv parents root : par parents root = (-1)%Z -> forall fuel pre stack,
  inv parents root pre stack -> (length parents <= length pre + fuel)%nat ->
  exists pre', dfs fuel parents pre stack = Some pre' /\ inv parents root pre' [].
Proof.
  intros Hr. induction fuel as [|k IH]; intros pre stack I L.
  - destruct stack as [|node rest]; [exists pre; auto|].
    pose proof (NoDup_range_length _ _ (i_nodup _ _ _ _ I) (i_range _ _ _ _ I)) as LL.
    rewrite app_length in LL. cbn in LL. lia.
  - destruct stack as [|node rest]; [exists pre; auto|]. cbn [dfs]. rewrite push_all. apply IH.
    + now apply inv_step.
    + rewrite app_length. cbn. lia.
Qed.

Lemma inv0 parents root : (root < length parents)%nat -> inv parents root [] [root].
Proof.
  intros H. split; cbn.
  - repeat constructor. intros [].
  - intros i [<-|[]]. exact H.
  - intros i [<-|[]]. now left.
  - intros [|? ?]; discriminate.
  - intros p i [].
  - now left.
Qed.

(** compute_orders accepts exactly one root and parents in range *)
Lemma parent_range_spec parents : parent_range parents = true <->
  forall i, (i < length parents)%nat -> par parents i = (-1)%Z \/ exists p, (p < length parents)%nat /\ par parents i = Z.of_nat p.
Proof.
  unfold parent_range. rewrite forallb_forall. split.
  - intros H i Hi. specialize (H (par parents i)). rewrite orb_true_iff, andb_true_iff, Z.eqb_eq, Z.leb_le, Z.ltb_lt in H.
    destruct H as [->|[H1 H2]]; [now apply nth_In|now left|right].
    exists (Z.to_nat (par parents i)). split; lia.
  - intros H z Hz. destruct (In_nth _ _ (-1)%Z Hz) as (i & Hi & <-).
    rewrite orb_true_iff, andb_true_iff, Z.eqb_eq, Z.leb_le, Z.ltb_lt.
    destruct (H i Hi) as [E|(p & Hp & E)]; unfold par in E; rewrite E; [now left|right; lia].
Qed.

Lemma compute_orders_spec parents pre : parents <> [] ->
  (compute_orders parents = Ok pre ->
   exists root, roots parents = [root] /\ parent_range parents = true /\ inv parents root pre []) /\
  (forall root, roots parents = [root] -> parent_range parents = true -> exists pre', compute_orders parents = Ok pre').
Proof.
  intros NE. unfold compute_orders. destruct parents as [|z zs]; [contradiction|]. set (parents := z :: zs) in *.
  assert (forall root, roots parents = [root] -> (root < length parents)%nat /\ par parents root = (-1)%Z) as RR.
  { intros root E. apply roots_spec. rewrite E. now left. }
  split.
  - destruct (roots parents) as [|root [|? ?]] eqn:ER; try discriminate.
    destruct (RR root eq_refl) as [R1 R2].
    destruct (parent_range parents); [|discriminate].
    destruct (dfs_inv parents root R2 (length parents) [] [root] (inv0 _ _ R1) ltac:(cbn; lia)) as (pre' & -> & I).
    intros [= <-]. exists root. auto.
  - intros root ER HP. rewrite ER, HP. destruct (RR root ER) as [R1 R2].
    destruct (dfs_inv parents root R2 (length parents) [] [root] (inv0 _ _ R1) ltac:(cbn; lia)) as (pre' & -> & I).
    eauto.
Qed.

Lemma tree_roots parents root : rooted_tree parents root -> roots parents = [root].
Proof.
  intros (H1 & H2 & H3 & _).
  assert (forall i, In i (roots parents) <-> i = root) as E.
  { intros i. rewrite roots_spec. split; [intros [A B]; now apply H3|intros ->; auto]. }
  pose proof (roots_NoDup parents) as N. destruct (roots parents) as [|a l].
  - exfalso. apply (proj2 (E root) eq_refl).
  - assert (a = root) as -> by (apply E; now left). f_equal. destruct l as [|b l]; [reflexivity|exfalso].
    assert (b = root) as -> by (apply E; right; now left). inversion N as [|? ? Hn _]. apply Hn. now left.
Qed.
Lemma tree_range parents root : rooted_tree parents root -> parent_range parents = true.
Proof.
  intros (H1 & H2 & H3 & H4). apply parent_range_spec. intros i Hi. destruct (H4 i Hi) as [|j p Hj Hp E _]; [now left|].
  right. exists p. auto.
Qed.
Lemma tree_parent parents root i : rooted_tree parents root -> (i < length parents)%nat ->
  (i = root /\ par parents i = (-1)%Z) \/ (i <> root /\ exists p, (p < length parents)%nat /\ par parents i = Z.of_nat p).
Proof.
  intros T Hi. pose proof T as (H1 & H2 & H3 & H4). destruct (Nat.eq_dec i root) as [->|N]; [now left|right].
  split; [assumption|]. destruct (proj1 (parent_range_spec parents) (tree_range _ _ T) i Hi) as [E|E]; [|assumption].
  exfalso. apply N. now apply H3.
Qed.

(** the pre-order of a rooted tree *)
Definition good_order (parents : list Z) (root : nat) (pre : list nat) : Prop :=
  NoDup pre /\ (forall i, In i pre <-> (i < length parents)%nat) /\ ordered parents root pre /\
  exists l, pre = root :: l.

Lemma reach_in parents root pre : inv parents root pre [] -> forall i, reaches parents root i -> In i pre.
Proof.
  intros [N R P O C Rt] i H. rewrite app_nil_r in *. induction H as [|i p Hi Hp E _ IH]; [assumption|].
  specialize (C p i IH Hi E). exact C.
Qed.

Lemma orders_tree parents root : rooted_tree parents root -> exists pre, compute_orders parents = Ok pre /\ good_order parents root pre.
Proof.
  intros T. pose proof T as (H1 & H2 & H3 & H4). assert (parents <> []) as NE by (intros ->; cbn in H1; lia).
  destruct (proj2 (compute_orders_spec parents [] NE) root (tree_roots _ _ T) (tree_range _ _ T)) as (pre & E).
  exists pre. split; [assumption|]. destruct (proj1 (compute_orders_spec parents pre NE) E) as (r & Er & _ & I).
  rewrite (tree_roots _ _ T) in Er. injection Er as <-. pose proof I as [N R P O C Rt]. rewrite app_nil_r in N, Rt.
  setoid_rewrite app_nil_r in R.
  repeat split.
  - assumption.
  - apply R.
  - intros Hi. apply (reach_in _ _ _ I), H4, Hi.
  - exact O.
  - destruct pre as [|a l]; [contradiction|]. exists l. f_equal.
    destruct (O [] a l eq_refl) as [->|(p & [] & _)]. reflexivity.
Qed.

Lemma good_order_unique parents root pre : rooted_tree parents root -> compute_orders parents = Ok pre -> good_order parents root pre.
Proof. intros T E. destruct (orders_tree parents root T) as (pre' & E' & G). rewrite E in E'. injection E' as <-. exact G. Qed.

Lemma has_structure_tree parents root : rooted_tree parents root -> has_structure parents = true.
Proof.
  intros T. unfold has_structure. rewrite (tree_roots _ _ T). cbn [length Nat.eqb andb]. apply forallb_forall.
  intros i Hi. apply in_seq in Hi. pose proof T as (H1 & H2 & H3 & H4).
  destruct (tree_parent parents root i T ltac:(lia)) as [[_ E]|[N (p & Hp & E)]]; rewrite E; [reflexivity|].
  rewrite orb_true_iff, !andb_true_iff, Z.leb_le, Z.ltb_lt, negb_true_iff, Z.eqb_neq. right. split; [lia|].
  intros EQ. assert (p = i) as -> by lia.
  (* a self-loop never reaches the root *)
  assert (forall j, reaches parents root j -> j <> i) as NR.
  { intros j Hj. induction Hj as [|j q Hj Hq Eq _ IH]; [auto|]. intros ->. unfold par in E. rewrite E in Eq. lia. }
  exact (NR i (H4 i ltac:(lia)) eq_refl).
Qed.
Lemma root_of_tree parents root : rooted_tree parents root -> root_of parents = root.
Proof. intros T. unfold root_of. now rewrite (tree_roots _ _ T). Qed.
