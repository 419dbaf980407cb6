(** The randomised dependence coefficient and the RDC partitioner. *)
From Coq Require Import List Arith Bool Reals Lia Lra Permutation Relations.
From Verif Require Import Base CircuitModel PromModel CltSpec RdcModel RdcSpec RdcProofs.
Import ListNotations.
Local Open Scope R_scope.

(** ** C241: partition_by_rdc returns the connected components of the dependent pairs *)
Section Part.
  Variables (dt : bool) (d : nat) (t : R) (coef : nat -> nat -> result R).
  Let pairs := filter (fun p => Nat.ltb (fst p) (snd p)) (list_prod (seq 0 d) (seq 0 d)).
  Lemma pairs_in u v : In (u, v) pairs <-> (u < v < d)%nat.
  Proof. unfold pairs. rewrite filter_In, in_prod_iff, !in_seq. cbn [fst snd]. rewrite Nat.ltb_lt. lia. Qed.
  Lemma all_ok : forallb (fun p => match coef (fst p) (snd p) with Ok _ => true | Err => false end) pairs = true <->
    forall u v, (u < v < d)%nat -> coef u v <> Err.
  Proof.
    rewrite forallb_forall. split.
    - intros H u v L E. apply pairs_in in L. specialize (H _ L). cbn [fst snd] in H. rewrite E in H. discriminate.
    - intros H [u v] L. apply pairs_in in L. specialize (H u v L). cbn [fst snd]. destruct (coef u v); [reflexivity|contradiction].
  Qed.
End Part.

Theorem C241_groups dt d t coef ids dt' : partition_by_rdc dt d t coef = (Ok ids, dt') ->
  length ids = d /\
  (forall u v, (u < d)%nat -> (v < d)%nat -> (nth u ids 0%nat = nth v ids 0%nat <-> together d t coef u v)) /\
  (forall v, (v < d)%nat -> (1 <= nth v ids 0)%nat /\
     (nth v ids 0%nat = 1%nat \/ exists u, (u < v)%nat /\ S (nth u ids 0%nat) = nth v ids 0%nat)).
Proof.
  unfold partition_by_rdc. cbv zeta. destruct (forallb _ _) eqn:F; [|discriminate]. intros H. injection H as <- <-. pose proof (proj1 (all_ok d coef) F) as OKs.
  set (r := fun i j => match coef i j with Ok v => v | Err => 0 end).
  split; [apply ids_length|]. split; [|intros v Hv; now apply ids_growth].
  intros u v Hu Hv. rewrite ids_same by assumption. apply linked_rst. clear u v Hu Hv. intros u v. rewrite edge_in. unfold dependent. split.
  - intros (L & A & B). split; [lia|]. split; [lia|]. pose proof (OKs u v L). unfold r in *. destruct (coef u v) as [c|]; [|contradiction]. exists c. now split.
  - intros (L1 & L2 & c & E & A & B). unfold r. rewrite E. split; [lia|now split].
Qed.
(** hence features in different groups have a coefficient below the threshold, or zero *)
Theorem C241_apart dt d t coef ids dt' u v : partition_by_rdc dt d t coef = (Ok ids, dt') -> (u < v < d)%nat ->
  nth u ids 0%nat <> nth v ids 0%nat -> exists c, coef u v = Ok c /\ (c < t \/ c = 0).
Proof.
  intros H L N. pose proof (C241_groups _ _ _ _ _ _ H) as (_ & G & _).
  unfold partition_by_rdc in H. cbv zeta in H. destruct (forallb _ _) eqn:F; [|discriminate]. pose proof (proj1 (all_ok d coef) F u v L) as OK1.
  destruct (coef u v) as [c|] eqn:E; [|contradiction]. exists c. split; [reflexivity|]. destruct (Rlt_le_dec c t) as [A|A]; [now left|]. destruct (Req_EM_T c 0) as [B|B]; [now right|].
  exfalso. apply N, G; [lia|lia|]. apply rst_step. split; [lia|]. split; [lia|]. exists c. now split.
Qed.
(** it raises iff some coefficient does; the default dtype is restored either way *)
Theorem C241_raises dt d t coef :
  (fst (partition_by_rdc dt d t coef) = Err <-> exists u v, (u < v < d)%nat /\ coef u v = Err) /\
  snd (partition_by_rdc dt d t coef) = dt.
Proof.
  unfold partition_by_rdc. cbv zeta. cbn [fst snd]. split; [|reflexivity]. destruct (forallb _ _) eqn:F.
  - pose proof (proj1 (all_ok d coef) F) as OKs. split; [discriminate|]. intros (u & v & L & E). exfalso. exact (OKs u v L E).
  - split; [intros _|reflexivity]. destruct (existsb (fun p => match coef (fst p) (snd p) with Ok _ => false | Err => true end) (filter (fun p => Nat.ltb (fst p) (snd p)) (list_prod (seq 0 d) (seq 0 d)))) eqn:X.
    + apply existsb_exists in X. destruct X as ([u v] & I & E). apply pairs_in in I. cbn [fst snd] in E. exists u, v. split; [exact I|]. destruct (coef u v); [discriminate|reflexivity].
    + exfalso. assert (forallb (fun p => match coef (fst p) (snd p) with Ok _ => true | Err => false end) (filter (fun p => Nat.ltb (fst p) (snd p)) (list_prod (seq 0 d) (seq 0 d))) = true); [|congruence].
      apply all_ok. intros u v L E. assert (existsb (fun p => match coef (fst p) (snd p) with Ok _ => false | Err => true end) (filter (fun p => Nat.ltb (fst p) (snd p)) (list_prod (seq 0 d) (seq 0 d))) = true); [|congruence].
      apply existsb_exists. exists (u, v). split; [now apply pairs_in|]. cbn [fst snd]. now rewrite E.
Qed.

(** ** C242: the coefficient lies in [0, 1] *)
Lemma fold_max_spec l a : (forall u, In u (a :: l) -> u <= fold_left Rmax l a) /\ In (fold_left Rmax l a) (a :: l).
Proof.
  revert a. induction l as [|b l IH]; intros a; cbn [fold_left]; [split; [intros u [->|[]]; lra|now left]|].
  destruct (IH (Rmax a b)) as [A B]. split.
  - intros u [->|[->|H]]; [eapply Rle_trans; [apply Rmax_l|apply A; now left]|eapply Rle_trans; [apply Rmax_r|apply A; now left]|apply A; now right].
  - destruct B as [B|B]; [|right; now right]. rewrite <- B. unfold Rmax. destruct (Rle_dec a b); [right; now left|now left].
Qed.
Lemma eigs_ok_spec l : eigs_ok l = true <-> valid_eigenvalues l.
Proof.
  unfold eigs_ok, valid_eigenvalues. rewrite forallb_forall. unfold rle.
  split; intros H z Hz; specialize (H z Hz).
  - destruct (Rle_dec (Rabs (snd z)) _); [|discriminate]. destruct (Rle_dec 0 _); [|discriminate]. destruct (Rle_dec (fst z) 1); [|discriminate]. now split.
  - destruct H as (A & B & C). destruct (Rle_dec (Rabs (snd z)) _); [|contradiction]. destruct (Rle_dec 0 _); [|contradiction]. destruct (Rle_dec (fst z) 1); [reflexivity|contradiction].
Qed.
Lemma search_in fuel ok : forall lb ub k j, search fuel ok lb ub k = At j -> ok j = true /\ (1 <= j)%nat.
Proof.
  induction fuel as [|fuel IH]; intros lb ub k j; [discriminate|]. cbn [search]. destruct (Nat.eqb_spec k 0); [discriminate|]. destruct (ok k) eqn:E; cbn [negb].
  - destruct (Nat.eqb lb ub); [intros H; injection H as <-; split; [exact E|lia]|]. destruct (Nat.eqb ub (k + 1)); apply IH.
  - apply IH.
Qed.
Theorem C242_value argsort f s fuel k wx wy eig x y v : rdc argsort f s fuel k wx wy eig x y = Ok v ->
  0 <= v <= 1 /\
  exists cx cy j, copula argsort x = Ok cx /\ copula argsort y = Ok cy /\ (1 <= j)%nat /\
    let l := eig (map (feature f s wx) cx) (map (feature f s wy) cy) j in
    valid_eigenvalues l /\ (l <> [] -> (forall z, In z l -> fst z <= v * v) /\ exists z, In z l /\ fst z = v * v).
Proof.
  unfold rdc. destruct (copula argsort x) as [cx|]; [|discriminate]. destruct (copula argsort y) as [cy|]; [|discriminate]. cbn [bind].
  destruct (negb _); [discriminate|]. destruct (search _ _ _ _ _) as [j| |] eqn:ES; [|discriminate|discriminate]. intros H. injection H as <-.
  apply search_in in ES. destruct ES as [V Hj]. apply eigs_ok_spec in V. set (l := eig _ _ j) in *.
  assert (B : 0 <= rmax_list (map fst l) <= 1 /\ (l <> [] -> (forall z, In z l -> fst z <= rmax_list (map fst l)) /\ exists z, In z l /\ fst z = rmax_list (map fst l))).
  { destruct l as [|z0 l']; [cbn; split; [lra|contradiction]|]. cbn [map rmax_list]. destruct (fold_max_spec (map fst l') (fst z0)) as [A B].
    change (fst z0 :: map fst l') with (map fst (z0 :: l')) in A, B. apply in_map_iff in B. destruct B as (z & E & Hz). split; [rewrite <- E; apply V, Hz|].
    intros _. split; [intros w Hw; apply A; now apply in_map|exists z; now split]. }
  destruct B as [[B1 B2] B3]. split; [split; [apply sqrt_pos|rewrite <- sqrt_1; now apply sqrt_le_1_alt]|].
  exists cx, cy, j. do 3 (split; [reflexivity||exact Hj|]). cbv zeta. fold l. rewrite sqrt_sqrt by exact B1. now split.
Qed.

(** the features of a sample are f(s/2 (w u + b)) of its rank divided by the number of samples *)
Theorem C242_features argsort f s w x cx c : x = V1 c \/ x = V2 [c] -> copula argsort x = Ok cx ->
  map (feature f s w) cx = map (fun r j => f (s / 2 * (fst (w j) * (r / INR (length c)) + snd (w j)))) (ranks argsort c).
Proof.
  intros [-> | ->] H; cbn [copula] in H; injection H as <-; rewrite map_map; apply map_ext; intros r; apply functional_extensionality; intros j; unfold feature; f_equal; unfold Rdiv; rewrite Rmult_1_r; ring.
Qed.
Print Assumptions C242_features.

(** ** C243: the search for the number of features ends, and finds it *)
Theorem C243_search argsort f s fuel k wx wy eig x y cx cy : copula argsort x = Ok cx -> copula argsort y = Ok cy -> length cx = length cy ->
  (1 <= k)%nat -> (2 * k + 1 <= fuel)%nat ->
  let E := eig (map (feature f s wx) cx) (map (feature f s wy) cy) in
  (forall fuel', (2 * k + 1 <= fuel')%nat -> rdc argsort f s fuel' k wx wy eig x y = rdc argsort f s fuel k wx wy eig x y) /\
  (valid_eigenvalues (E 1%nat) -> exists v, rdc argsort f s fuel k wx wy eig x y = Ok v) /\
  ((forall j, (1 <= j <= k)%nat -> ~ valid_eigenvalues (E j)) -> rdc argsort f s fuel k wx wy eig x y = Err) /\
  (forall m, (1 <= m <= k)%nat -> (forall j, (1 <= j <= k)%nat -> (valid_eigenvalues (E j) <-> (j <= m)%nat)) ->
     rdc argsort f s fuel k wx wy eig x y = Ok (sqrt (rmax_list (map fst (E m))))).
Proof.
  intros E1 E2 EL Hk HF E. assert (R0 : forall g, rdc argsort f s g k wx wy eig x y = match search g (fun j => eigs_ok (E j)) 1 k k with At j => Ok (sqrt (rmax_list (map fst (E j)))) | _ => Err end).
  { intros g. unfold rdc. rewrite E1, E2. cbn [bind]. rewrite EL, Nat.eqb_refl. reflexivity. }
  set (ok := fun j => eigs_ok (E j)) in *.
  assert (MS : forall g, (2 * k + 1 <= g)%nat -> (meas 1 k k + 2 <= g)%nat) by (intros g Hg; unfold meas; destruct (Nat.eqb_spec k 1); lia).
  pose proof (fun g Hg => search_spec ok k Hk g 1%nat k k (sinv0 ok k Hk) (MS g Hg)) as SP.
  split; [|split; [|split]].
  - intros g Hg. rewrite !R0. assert (search g ok 1 k k = search fuel ok 1 k k) as ->; [|reflexivity].
    pose proof (SP g Hg) as S1. pose proof (SP fuel HF) as S2.
    assert (mono : forall a lb ub q b, search a ok lb ub q <> OutOfFuel -> (a <= b)%nat -> search b ok lb ub q = search a ok lb ub q).
    { clear. induction a as [|a IH]; intros lb ub q b N L; [now elim N|]. destruct b; [lia|]. cbn [search] in *. destruct (Nat.eqb q 0); [reflexivity|]. destruct (negb (ok q)); [apply IH; [exact N|lia]|].
      destruct (Nat.eqb lb ub); [reflexivity|]. destruct (Nat.eqb ub (q + 1)); apply IH; try exact N; lia. }
    destruct (le_ge_dec g fuel) as [L|L]; [symmetry|]; apply mono; try exact L; intros Q; [rewrite Q in S1|rewrite Q in S2]; assumption.
  - intros V. rewrite R0. specialize (SP fuel HF). destruct (search fuel ok 1 k k) as [j| |]; [eexists; reflexivity| |contradiction]. unfold ok in SP. apply eigs_ok_spec in V. congruence.
  - intros V. rewrite R0. specialize (SP fuel HF). destruct (search fuel ok 1 k k) as [j| |]; [|reflexivity|reflexivity]. exfalso. destruct SP as (A & B & _). apply (V j A). now apply eigs_ok_spec.
  - intros m Hm V. rewrite R0. specialize (SP fuel HF). destruct (search fuel ok 1 k k) as [j| |]; [| |contradiction].
    + destruct SP as (A & B & C). rewrite (C m); [reflexivity| |exact Hm]. intros i Hi. unfold ok. rewrite eigs_ok_spec. now apply V.
    + exfalso. assert (ok 1%nat = true); [|congruence]. apply eigs_ok_spec. apply V; lia.
Qed.

(** ** C244: ranks, and invariance under strictly increasing transformations *)
Theorem C244_ranks argsort x : sorts argsort ->
  Permutation (ranks argsort x) (map INR (seq 1 (length x))) /\
  (forall i j, (i < length x)%nat -> (j < length x)%nat -> nth i x 0 < nth j x 0 -> nth i (ranks argsort x) 0 < nth j (ranks argsort x) 0) /\
  (NoDup x -> forall i, (i < length x)%nat -> nth i (ranks argsort x) 0 = INR (S (smaller x (nth i x 0)))).
Proof.
  intros HS. split; [now apply ranks_perm|]. split.
  - intros i j Hi Hj L. rewrite !ranks_nth by assumption. apply lt_INR. apply -> Nat.succ_lt_mono. now apply pos_mono.
  - intros ND i Hi. now apply ranks_smaller.
Qed.
(** no two samples share a rank, whatever their values *)
Lemma ranks_distinct argsort x i j : sorts argsort -> (i < length x)%nat -> (j < length x)%nat -> i <> j -> nth i (ranks argsort x) 0 <> nth j (ranks argsort x) 0.
Proof. intros HS Hi Hj N E. rewrite !ranks_nth in E by assumption. apply INR_eq in E. injection E as E. apply N. eapply pos_inj; eassumption. Qed.
Theorem C244_invariant argsort argsort' f s fuel k wx wy eig x y g h : sorts argsort -> sorts argsort' -> increasing g -> increasing h -> NoDup x -> NoDup y ->
  rdc argsort f s fuel k wx wy eig (V1 (map g x)) (V1 (map h y)) = rdc argsort' f s fuel k wx wy eig (V1 x) (V1 y).
Proof. intros H1 H2 Hg Hh Nx Ny. unfold rdc, copula. cbn [bind]. rewrite !(ranks_invariant argsort argsort') by assumption. rewrite !map_length. reflexivity. Qed.

(** a correct argsort exists: insertion sort of the positions *)
Fixpoint ins (x : list R) (i : nat) (l : list nat) : list nat :=
  match l with [] => [i] | a :: r => if Rle_dec (nth i x 0) (nth a x 0) then i :: l else a :: ins x i r end.
Definition isort (x : list R) : list nat := fold_right (ins x) [] (seq 0 (length x)).
Lemma ins_perm x i l : Permutation (ins x i l) (i :: l).
Proof. induction l as [|a l IH]; cbn [ins]; [constructor; constructor|]. destruct (Rle_dec _ _); [apply Permutation_refl|]. eapply perm_trans; [apply perm_skip, IH|apply perm_swap]. Qed.
Inductive ordered (x : list R) : list nat -> Prop :=
| o_nil : ordered x [] | o_cons a l : (forall b, In b l -> nth a x 0 <= nth b x 0) -> ordered x l -> ordered x (a :: l).
Lemma ins_ordered x i l : ordered x l -> ordered x (ins x i l).
Proof.
  induction 1 as [|a l H O IH]; cbn [ins]; [constructor; [intros b []|constructor]|]. destruct (Rle_dec _ _) as [L|L].
  - constructor; [|now constructor]. intros b [<-|Hb]; [exact L|]. eapply Rle_trans; [exact L|now apply H].
  - constructor; [|exact IH]. intros b Hb. apply (Permutation_in _ (ins_perm x i l)) in Hb. destruct Hb as [<-|Hb]; [lra|now apply H].
Qed.
Lemma isort_sorts : sorts isort.
Proof.
  intros x. split.
  - unfold isort. induction (seq 0 (length x)) as [|a l IH]; [constructor|]. cbn [fold_right]. eapply perm_trans; [apply ins_perm|now apply perm_skip].
  - assert (O : ordered x (isort x)) by (unfold isort; induction (seq 0 (length x)) as [|a l IH]; [constructor|cbn [fold_right]; now apply ins_ordered]).
    assert (LN : length (isort x) = length x). { unfold isort. rewrite <- (seq_length (length x) 0) at 2. induction (seq 0 (length x)) as [|a l IH]; [reflexivity|]. cbn [fold_right]. rewrite (Permutation_length (ins_perm _ _ _)). cbn [length]. now rewrite IH. }
    intros i j Hij Hj. rewrite <- LN in Hj. clear LN. revert i j Hij Hj. induction O as [|a l H O IH]; intros i j Hij Hj; [cbn in Hj; lia|]. destruct j; [lia|]. cbn [length] in Hj. destruct i; cbn [nth].
    + apply H, nth_In. lia.
    + apply IH; lia.
Qed.

(** ** C245: tied values share a rank: they never do *)
Definition tied_share (argsort : list R -> list nat) : Prop :=
  forall x i j, (i < length x)%nat -> (j < length x)%nat -> nth i x 0 = nth j x 0 -> nth i (ranks argsort x) 0 = nth j (ranks argsort x) 0.
Theorem C245_ties_refuted argsort : sorts argsort -> ~ tied_share argsort.
Proof. intros HS H. apply (ranks_distinct argsort [5; 5] 0 1 HS); [cbn; lia|cbn; lia|lia|]. apply H; [cbn; lia|cbn; lia|reflexivity]. Qed.
(** a constant column is given the ranks 1, ..., n in some order, so a constant feature is
    treated as some strictly increasing rearrangement of 1, ..., n *)
Theorem C245_constant argsort c n : sorts argsort -> exists x, NoDup x /\ length x = n /\ ranks argsort (repeat c n) = ranks argsort x.
Proof.
  intros HS. pose proof (proj1 (C244_ranks argsort (repeat c n) HS)) as P. rewrite repeat_length in P.
  exists (ranks argsort (repeat c n)). assert (ND : NoDup (ranks argsort (repeat c n))).
  { eapply Permutation_NoDup; [apply Permutation_sym, P|]. apply FinFun.Injective_map_NoDup; [intros a b; apply INR_eq|apply seq_NoDup]. }
  split; [exact ND|]. assert (LN : length (ranks argsort (repeat c n)) = n) by (unfold ranks; now rewrite map_length, seq_length, repeat_length). split; [exact LN|].
  apply nth_ext with (d := 0) (d' := 0); [rewrite LN; unfold ranks; rewrite !map_length, !seq_length, repeat_length; reflexivity|]. rewrite LN. intros i Hi.
  rewrite (proj2 (proj2 (C244_ranks argsort (ranks argsort (repeat c n)) HS)) ND) by (now rewrite LN).
  (* each rank v has v - 1 smaller ranks *)
  assert (Q : forall v, In v (ranks argsort (repeat c n)) -> INR (S (smaller (ranks argsort (repeat c n)) v)) = v).
  { intros v Hv. assert (In v (map INR (seq 1 n))) as Hv' by (eapply Permutation_in; eassumption). apply in_map_iff in Hv'. destruct Hv' as (k & <- & Hk). apply in_seq in Hk. f_equal.
    assert (smaller (ranks argsort (repeat c n)) (INR k) = smaller (map INR (seq 1 n)) (INR k)) as ->.
    { unfold smaller. clear - P. revert P. generalize (ranks argsort (repeat c n)) (map INR (seq 1 n)). intros l l' P. induction P as [|a l l' _ IH|a b l|l l' l'' _ IH _ IH']; cbn [filter]; [reflexivity|destruct (Rlt_dec a (INR k)); cbn [length]; now rewrite IH|destruct (Rlt_dec a (INR k)), (Rlt_dec b (INR k)); reflexivity|now rewrite IH]. }
    unfold smaller. replace n with (k - 1 + S (n - k))%nat by lia. rewrite seq_app, map_app, filter_app, app_length.
    assert (forall a m, (a + m <= k)%nat -> length (filter (fun u => if Rlt_dec u (INR k) then true else false) (map INR (seq a m))) = m) as F1.
    { intros a m. revert a. induction m as [|m IH]; intros a Ha; [reflexivity|]. cbn [seq map filter]. destruct (Rlt_dec (INR a) (INR k)) as [_|N]; [cbn [length]; rewrite IH by lia; reflexivity|]. exfalso. apply N, lt_INR. lia. }
    assert (forall a m, (k <= a)%nat -> length (filter (fun u => if Rlt_dec u (INR k) then true else false) (map INR (seq a m))) = 0%nat) as F2.
    { intros a m. revert a. induction m as [|m IH]; intros a Ha; [reflexivity|]. cbn [seq map filter]. destruct (Rlt_dec (INR a) (INR k)) as [N|_]; [|apply IH; lia]. exfalso. apply INR_lt in N. lia. }
    rewrite F1, F2 by lia. lia. }
  symmetry. apply Q. apply nth_In. now rewrite LN.
Qed.

(** ** C246: inputs with several variables are accepted: they always raise *)
Definition several_accepted : Prop := forall argsort f s fuel k wx wy eig c1 c2 y, (2 * k + 1 <= fuel)%nat -> (1 <= k)%nat -> length c1 = length c2 -> length y = length c1 ->
  (forall a b j, valid_eigenvalues (eig a b j)) -> rdc argsort f s fuel k wx wy eig (V2 [c1; c2]) (V1 y) <> Err.
Theorem C246_variables argsort f s fuel k wx wy eig x y :
  (rdc argsort f s fuel k wx wy eig x y <> Err -> (match x with V1 _ => 1 | V2 cs => length cs end = 1)%nat /\ (match y with V1 _ => 1 | V2 cs => length cs end = 1)%nat).
Proof.
  unfold rdc. intros H. assert (A : forall z, copula argsort z <> Err -> (match z with V1 _ => 1 | V2 cs => length cs end = 1)%nat).
  { intros [c|[|c [|c' cs]]] Hz; cbn in *; congruence. }
  split; apply A; intros E; rewrite E in H; [now apply H|]. destruct (copula argsort x); now apply H.
Qed.
Theorem C246_several_refuted : ~ several_accepted.
Proof. intros H. apply (H (fun x => seq 0 (length x)) sin 1 100%nat 1%nat (fun _ => (0, 0)) (fun _ => (0, 0)) (fun _ _ _ => [(0, 0)]) [0] [0] [0]); [lia|lia|reflexivity|reflexivity| |reflexivity].
  intros a b j z [<-|[]]. cbn [fst snd]. rewrite Rabs_R0. split; [|lra]. apply Rlt_le, Rinv_0_lt_compat, pow_lt. lra. Qed.

(** ** Examples *)
(** features 0 and 2 dependent, 1 alone *)
Example ex_coef (i j : nat) : result R := Ok (if (Nat.eqb i 0 && Nat.eqb j 2)%bool then 9 / 10 else 1 / 10).
Example ex_part : exists ids, partition_by_rdc false 3 (3 / 10) ex_coef = (Ok ids, false) /\ nth 0 ids 0%nat = nth 2 ids 0%nat /\ nth 0 ids 0%nat <> nth 1 ids 0%nat.
Proof.
  destruct (partition_by_rdc false 3 (3 / 10) ex_coef) as [[ids|] dt] eqn:E.
  - pose proof (proj2 (C241_raises false 3 (3 / 10) ex_coef)) as D. rewrite E in D. cbn in D. subst dt. exists ids. split; [reflexivity|].
    destruct (C241_groups _ _ _ _ _ _ E) as (_ & G & _). split.
    + apply G; [lia|lia|]. apply rst_step. split; [lia|]. split; [lia|]. exists (9 / 10). split; [reflexivity|lra].
    + intros Q. apply G in Q; [|lia|lia]. assert (forall u v, together 3 (3 / 10) ex_coef u v -> (u = 1 <-> v = 1)%nat) as T.
      { intros u v T. induction T as [u v (L1 & L2 & c & E1 & A & B)|u|u v _ IH|u v w _ IH1 _ IH2]; [|tauto|tauto|tauto].
        unfold ex_coef in E1. injection E1 as <-. destruct u as [|[|u]], v as [|[|[|v]]]; cbn in A; try lra; try lia. }
      apply T in Q. lia.
  - exfalso. pose proof (proj1 (proj1 (C241_raises false 3 (3 / 10) ex_coef))) as H. rewrite E in H. destruct (H eq_refl) as (u & v & _ & K). discriminate.
Qed.
Example ex_rdc : exists v, rdc isort sin (1 / 6) 41 20 (fun _ => (1, 0)) (fun _ => (1, 0)) (fun _ _ _ => [(1 / 4, 0)]) (V1 [3; 1]) (V1 [2; 7]) = Ok v /\ v * v = 1 / 4.
Proof.
  assert (V : valid_eigenvalues [(1 / 4, 0)]). { intros z [<-|[]]. cbn [fst snd]. rewrite Rabs_R0. split; [|lra]. apply Rlt_le, Rinv_0_lt_compat, pow_lt. lra. }
  destruct (C243_search isort sin (1 / 6) 41 20 (fun _ => (1, 0)) (fun _ => (1, 0)) (fun _ _ _ => [(1 / 4, 0)]) (V1 [3; 1]) (V1 [2; 7]) _ _ eq_refl eq_refl) as (_ & A & _); [unfold ranks; rewrite !map_length, !seq_length; reflexivity|lia|lia|].
  destruct (A V) as [v E]. exists v. split; [exact E|]. destruct (C242_value _ _ _ _ _ _ _ _ _ _ _ E) as (_ & cx & cy & j & _ & _ & _ & _ & B). destruct (B ltac:(discriminate)) as (_ & z & [<-|[]] & Q). now symmetry.
Qed.
Example ex_invariant : rdc isort sin (1 / 6) 41 20 (fun _ => (1, 0)) (fun _ => (1, 0)) (fun _ _ _ => [(1 / 4, 0)]) (V1 (map exp [3; 1])) (V1 (map exp [2; 7])) =
  rdc isort sin (1 / 6) 41 20 (fun _ => (1, 0)) (fun _ => (1, 0)) (fun _ _ _ => [(1 / 4, 0)]) (V1 [3; 1]) (V1 [2; 7]).
Proof. apply C244_invariant; try apply isort_sorts; try (intros a b; apply exp_increasing); repeat constructor; cbn; intros K; intuition lra. Qed.

Print Assumptions C241_groups.
Print Assumptions C241_apart.
Print Assumptions C241_raises.
Print Assumptions C242_value.
Print Assumptions C243_search.
Print Assumptions C244_ranks.
Print Assumptions C244_invariant.
Print Assumptions C245_ties_refuted.
Print Assumptions C245_constant.
Print Assumptions C246_variables.
Print Assumptions C246_several_refuted.
