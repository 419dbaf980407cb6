(** Properties C34, C104-C111: Chow-Liu tree leaves. *)
From Coq Require Import List Arith ZArith Bool Reals Lra Lia.
From Verif Require Import Base CircuitModel LeafModel LeafProofs Integral SampleModel SampleSpec SampleExp MleProofs CltModel CltSpec CltDfs CltElim CltTop CltPrim CltFit.
Import ListNotations.
Local Open Scope R_scope.

(** *** A tree with four nodes: 2 is the root, 0 and 3 its children, 1 a child of 0 *)
Definition ex_par : list Z := [2; 0; -1; 2]%Z.
Lemma ex_tree : rooted_tree ex_par 2.
Proof.
  assert (reaches ex_par 2 2) as R2 by constructor.
  assert (reaches ex_par 2 0) as R0 by (apply (reach_step _ _ 0 2); cbn; auto; lia).
  assert (reaches ex_par 2 3) as R3 by (apply (reach_step _ _ 3 2); cbn; auto; lia).
  assert (reaches ex_par 2 1) as R1 by (apply (reach_step _ _ 1 0); cbn; auto; lia).
  split; [cbn; lia|]. split; [reflexivity|]. split.
  - intros [|[|[|[|i]]]] Hi E; cbn in *; try discriminate; try reflexivity. lia.
  - intros [|[|[|[|i]]]] Hi; cbn in Hi; auto. lia.
Qed.
(** tables: channel [c] gives 3/4 to agreement with the parent (to 0 for the root) for c = 0 *)
Definition ex_cpt (i c r xi xp : nat) : lval := lfrom (if Nat.eqb xi xp then (if Nat.eqb c 0 then 3 / 4 else 1 / 4) else (if Nat.eqb c 0 then 1 / 4 else 3 / 4)).
Definition ex_t : cltree := mkClt [5; 7; 8; 9]%nat 2 1 2 1 ex_par [2; 0; 1; 3]%nat ex_cpt.
Example ex_built : mk_cltree [5; 7; 8; 9]%nat 2 1 2 1 ex_par ex_cpt = Ok ex_t.
Proof. unfold mk_cltree. rewrite MleProofs.rle_false by lra. reflexivity. Qed.
Definition ex_ob (i : nat) : option nat := match i with 1 => Some 1%nat | 3 => Some 0%nat | _ => None end.
Definition ex_row (i : nat) : option R := match i with 1 => Some 1 | 3 => Some 0 | _ => None end.
Example ex_observes : observes 4 2 ex_row ex_ob.
Proof.
  intros [|[|[|[|i]]]] Hi; cbn; try reflexivity; try lia.
  - split; [lia|reflexivity].
  - split; [lia|reflexivity].
Qed.
Example ex_missing : missing_of 4 ex_ob [0; 2]%nat.
Proof.
  split; [repeat constructor; cbn; intuition lia|]. intros v. cbn. split.
  - intros [<-|[<-|[]]]; (split; [lia|reflexivity]).
  - intros [Hv E]. destruct v as [|[|[|[|v]]]]; cbn in E; try discriminate; auto. lia.
Qed.
Lemma ex_pr i c xi xp : pr (ex_cpt i c 0 xi xp) = if Nat.eqb xi xp then (if Nat.eqb c 0 then 3 / 4 else 1 / 4) else (if Nat.eqb c 0 then 1 / 4 else 3 / 4).
Proof. unfold ex_cpt. apply pr_lfrom. destruct (Nat.eqb xi xp), (Nat.eqb c 0); lra. Qed.
Example ex_evidence : fsum 2 [0; 2]%nat (tree_prob ex_par (fun i a b => pr (ex_cpt i 0 0 a b))) (fun i => match i with 1 => 1 | _ => 0 end)%nat = 1 / 4.
Proof. cbn -[pr ex_cpt]. change (Pos.to_nat 2) with 2%nat. rewrite !ex_pr. cbn. lra. Qed.
Example ex_normalised c : normalised_tables 4 2 ex_par (fun i a b => pr (ex_cpt i c 0 a b)).
Proof.
  intros i xp Hi Hxp _. cbn [bsum]. rewrite !ex_pr. destruct xp as [|[|xp]]; [| |lia]; cbn; destruct (Nat.eqb c 0); lra.
Qed.

(** C34: a rooted tree is accepted (K >= 2, alpha > 0, at least two features); the
    traversal order lists every node once, parents before children. *)
Theorem C34_accepts : forall query C P K alpha parents cpt root, rooted_tree parents root ->
  (exists t, mk_cltree query C P K alpha parents cpt = Ok t) <->
  (2 <= K)%nat /\ 0 < alpha /\ (2 <= length query)%nat /\ length parents = length query.
Proof. exact mk_cltree_spec. Qed.
Print Assumptions C34_accepts.
Theorem C34_order : forall query C P K alpha parents cpt root t, mk_cltree query C P K alpha parents cpt = Ok t ->
  rooted_tree parents root -> NoDup (t_pre t) /\ (forall i, In i (t_pre t) <-> (i < length query)%nat) /\
  forall A i B, t_pre t = A ++ i :: B -> i = root \/ exists p, In p A /\ nth i parents (-1)%Z = Z.of_nat p.
Proof.
  intros query C P K alpha parents cpt root t HT T.
  destruct (parts query C P K alpha parents cpt root t HT T) as (_ & L & pre & (G1 & G2 & G3 & _) & ->). cbn [t_pre].
  rewrite L in G2. auto.
Qed.
Print Assumptions C34_order.

(** The log-likelihood of every row of a batch (whatever the other rows are) is the
    exact marginal: the product of conditionals summed over the missing cells; it
    is stored at feature 0, the other features get log 1.  Other rows raise. *)
Theorem C34_loglik : forall query C P K alpha parents cpt root t rows obsv, mk_cltree query C P K alpha parents cpt = Ok t ->
  rooted_tree parents root -> Forall2 (observes (length query) K) rows obsv ->
  exists lls, clt_loglik t rows = Ok lls /\ length lls = length rows /\
    forall b x ob, nth_error rows b = Some x -> nth_error obsv b = Some ob -> exists ll, nth_error lls b = Some ll /\
      forall c r, (forall f, f <> 0%nat -> ll f c r = Fin 0) /\
        forall vs y, missing_of (length query) ob vs -> (forall i v, (i < length query)%nat -> ob i = Some v -> y i = v) ->
          pr (ll 0%nat c r) = fsum K vs (tree_prob parents (fun i a p => pr (cpt i c r a p))) y.
Proof. intros query C P K alpha parents cpt root t rows obsv HT T. exact (loglik_spec query C P K alpha parents cpt root t HT T rows obsv). Qed.
Print Assumptions C34_loglik.
Example C34_nonvacuous : Forall2 (observes 4 2) [ex_row; (fun _ => Some 1)] [ex_ob; (fun _ => Some 1%nat)].
Proof. constructor; [exact ex_observes|]. constructor; [|constructor]. intros i _. split; [lia|reflexivity]. Qed.
Theorem C34_invalid : forall query C P K alpha parents cpt root t rows, mk_cltree query C P K alpha parents cpt = Ok t ->
  rooted_tree parents root -> (exists x, In x rows /\ ~ exists ob, observes (length query) K x ob) -> clt_loglik t rows = Err.
Proof. intros query C P K alpha parents cpt root t rows HT T. exact (loglik_raises query C P K alpha parents cpt root t HT T rows). Qed.
Print Assumptions C34_invalid.
(** With normalised tables the probabilities of all rows sum to one. *)
Theorem C34_normalised : forall query C P K alpha parents cpt root t c r vs y, mk_cltree query C P K alpha parents cpt = Ok t ->
  rooted_tree parents root -> normalised_tables (length query) K parents (fun i a p => pr (cpt i c r a p)) ->
  missing_of (length query) (fun _ => None) vs -> fsum K vs (tree_prob parents (fun i a p => pr (cpt i c r a p))) y = 1.
Proof. intros query C P K alpha parents cpt root t c r vs y HT T. exact (total_normalised query C P K alpha parents cpt root t HT T c r vs y). Qed.
Print Assumptions C34_normalised.

(** C104: sampling draws the missing cells from the exact conditional given the
    observed cells (whatever the uninitialised memory holds), without raising. *)
Theorem C104_conditional : forall query C P K alpha parents cpt root t D junk c r ch mask x ob vs y g,
  mk_cltree query C P K alpha parents cpt = Ok t -> rooted_tree parents root ->
  (forall f, (f < length query)%nat -> ch f = c) -> observes (length query) K x ob -> missing_of (length query) ob vs ->
  (forall i v, (i < length query)%nat -> ob i = Some v -> y i = v) -> first_cells (length query) g ->
  fsum K vs (tree_prob parents (fun i a p => pr (cpt i c r a p))) y <> 0 ->
  expects D (clt_sample false junk t ch r mask x) g
    (fsum K vs (fun z => tree_prob parents (fun i a p => pr (cpt i c r a p)) z * g (fill x mask z)) y /
     fsum K vs (tree_prob parents (fun i a p => pr (cpt i c r a p))) y).
Proof.
  intros query C P K alpha parents cpt root t D junk c r ch mask x ob vs y g HT T.
  exact (sample_expects query C P K alpha parents cpt root t HT T D junk c r ch mask x ob vs y g).
Qed.
Print Assumptions C104_conditional.
Example C104_nonvacuous junk : expects (fun _ => DReal) (clt_sample false junk ex_t (fun _ => 0%nat) 0 (fun _ => true) ex_row)
  (fun x => match x 0%nat with Some a => a | None => 0 end) (9 / 16).
Proof.
  pose proof (C104_conditional [5; 7; 8; 9]%nat 2 1 2 1 ex_par ex_cpt 2 ex_t (fun _ => DReal) junk 0 0 (fun _ => 0%nat) (fun _ => true) ex_row ex_ob [0; 2]%nat
    (fun i => match i with 1 => 1 | _ => 0 end)%nat (fun x => match x 0%nat with Some a => a | None => 0 end) ex_built ex_tree) as H.
  cbv beta in H. cbn [length] in H. rewrite ex_evidence in H.
  match type of H with _ -> _ -> _ -> _ -> _ -> _ -> expects _ _ _ ?u => assert (u = 9 / 16) as E end.
  { cbn -[pr ex_cpt]. change (Pos.to_nat 2) with 2%nat. rewrite !ex_pr. cbn. lra. }
  rewrite E in H. apply H.
  - reflexivity.
  - exact ex_observes.
  - exact ex_missing.
  - intros [|[|[|[|i]]]] v Hi Ev; cbn in *; congruence.
  - intros a b Hab. now rewrite Hab by lia.
  - lra.
Qed.

(** C105: mpe completes a row by a most probable assignment of the missing cells. *)
Theorem C105_mpe : forall query C P K alpha parents cpt root t junk c r ch mask x ob,
  mk_cltree query C P K alpha parents cpt = Ok t -> rooted_tree parents root ->
  (forall f, (f < length query)%nat -> ch f = c) -> observes (length query) K x ob ->
  exists z, clt_sample true junk t ch r mask x = Ret (fill x mask z) /\ agrees (length query) K ob z /\
    forall z', agrees (length query) K ob z' ->
      tree_prob parents (fun i a p => pr (cpt i c r a p)) z' <= tree_prob parents (fun i a p => pr (cpt i c r a p)) z.
Proof.
  intros query C P K alpha parents cpt root t junk c r ch mask x ob HT T.
  exact (mpe_max query C P K alpha parents cpt root t HT T junk c r ch mask x ob).
Qed.
Print Assumptions C105_mpe.

(** C106: the learnt structure is a rooted tree and a maximum spanning tree for the
    (smoothed) mutual information of the scoped columns. *)
Theorem C106_structure : forall query K alpha n d cols, (0 < length query)%nat -> resolve_columns query n = Ok cols ->
  exists parents, fit_structure query K alpha n d = Ok parents /\ length parents = length query /\ rooted_tree parents 0 /\
    spanning (length query) (tree_edges parents) /\
    forall E, spanning (length query) E ->
      weight (mi_matrix K alpha (map (fun wx => (fst wx, fun i => snd wx (nth i cols 0%nat))) d)) E <=
      weight (mi_matrix K alpha (map (fun wx => (fst wx, fun i => snd wx (nth i cols 0%nat))) d)) (tree_edges parents).
Proof. exact fit_structure_spec. Qed.
Print Assumptions C106_structure.
Theorem C106_prim : forall F w root, (forall i j, w i j = w j i) -> (root < F)%nat ->
  exists parents, prim F w root = Ok parents /\ length parents = F /\ rooted_tree parents root /\
    spanning F (tree_edges parents) /\ forall E, spanning F E -> weight w E <= weight w (tree_edges parents).
Proof. exact prim_spec. Qed.
Print Assumptions C106_prim.
Example C106_nonvacuous : resolve_columns [3; 0; 2]%nat 4 = Ok [3; 0; 2]%nat /\ spanning 3 [(0, 2); (2, 1)]%nat.
Proof.
  split; [reflexivity|]. split; [|split; [|reflexivity]].
  - intros u v [[= <- <-]|[[= <- <-]|[]]]; lia.
  - assert (forall v, (v < 3)%nat -> linked [(0, 2); (2, 1)]%nat 2 v) as L.
    { intros [|[|[|v]]] Hv; [| |apply l_refl|lia].
      - apply linked_edge. right. cbn. auto. - apply linked_edge. left. cbn. auto. }
    intros u v Hu Hv. eapply linked_trans; [apply linked_sym|]; now apply L.
Qed.

(** C107: the estimated tables are the smoothed weighted frequencies, floored at
    1e-12; if no entry is floored they are normalised and maximise the smoothed
    likelihood of their column. *)
Theorem C107_tables : forall K alpha parents d i xp, (0 < K)%nat -> / 10 ^ 12 <= alpha ->
  (forall wx, In wx d -> 0 <= fst wx) -> (forall wx, In wx d -> (snd wx i < K)%nat) ->
  let cond x := Z.eqb (nth i parents (-1)%Z) (-1) || Nat.eqb (x (Z.to_nat (nth i parents (-1)%Z))) xp in
  let n k := alpha + wsum d (fun x => Nat.eqb (x i) k && cond x) in
  let N := INR K * alpha + wsum d cond in
  (forall k, pr (mle_cpt K alpha parents d i k xp) = Rmax (n k / N) (/ 10 ^ 12)) /\
  1 <= bsum K (fun k => pr (mle_cpt K alpha parents d i k xp)) <= 1 + INR K * / 10 ^ 12 /\
  ((forall k, (k < K)%nat -> / 10 ^ 12 <= n k / N) ->
    bsum K (fun k => pr (mle_cpt K alpha parents d i k xp)) = 1 /\
    forall p, (forall k, (k < K)%nat -> 0 < p k) -> bsum K p = 1 ->
      bsum K (fun k => n k * ln (p k)) <= bsum K (fun k => n k * ln (pr (mle_cpt K alpha parents d i k xp)))).
Proof.
  intros K alpha parents d i xp HK Ha Hw Hv cond n N. split; [|split].
  - exact (mle_value K alpha parents d i xp HK Ha Hw Hv).
  - exact (mle_bounds K alpha parents d i xp HK Ha Hw Hv).
  - intros H. exact (proj2 (mle_exact K alpha parents d i xp HK Ha Hw Hv H)).
Qed.
Print Assumptions C107_tables.
Example C107_nonvacuous : let d := [(1, fun _ => 0%nat); (1, fun i => match i with O => 1%nat | _ => 0%nat end); (2, fun _ => 1%nat)] in
  pr (mle_cpt 2 1 [-1; 0]%Z d 1 1 1) = 3 / 5.
Proof.
  intros d. assert (/ 10 ^ 12 <= 1 / 10) as S1.
  { change (1 / 10) with (1 * / 10). rewrite Rmult_1_l. apply Rinv_le_contravar; [lra|]. lra. }
  destruct (C107_tables 2 1 [-1; 0]%Z d 1 1) as [H _].
  - lia.
  - lra.
  - intros wx [<-|[<-|[<-|[]]]]; cbn; lra.
  - intros wx [<-|[<-|[<-|[]]]]; cbn; lia.
  - rewrite H. cbn -[pow]. rewrite Rmax_left; [lra|]. lra.
Qed.

(** C108 (refuted): a parent vector is accepted only if it is a tree.  Nodes 1 and 2
    are each other's parent; construction accepts the vector, all tables are
    normalised, but the probabilities of the complete rows sum to 2 while the row
    without any observed cell has probability 1, and sampled cells are
    uninitialised memory. *)
Definition cyc_par : list Z := [-1; 2; 1]%Z.
Definition cyc_cpt (i c r xi xp : nat) : lval :=
  lfrom (if Nat.eqb i 0 then 1 / 2 else if Nat.eqb xi xp then 1 else 0).
Lemma cyc_pr i xi xp : pr (cyc_cpt i 0 0 xi xp) = if Nat.eqb i 0 then 1 / 2 else if Nat.eqb xi xp then 1 else 0.
Proof. unfold cyc_cpt. apply pr_lfrom. destruct (Nat.eqb i 0), (Nat.eqb xi xp); lra. Qed.
Theorem C108_cycle_accepted_refuted : exists query K alpha parents cpt t,
  mk_cltree query 1 1 K alpha parents cpt = Ok t /\ has_structure parents = true /\
  normalised_tables 3 K parents (fun i a p => pr (cpt i 0%nat 0%nat a p)) /\
  (forall root, ~ rooted_tree parents root) /\
  fsum K [0; 1; 2]%nat (tree_prob parents (fun i a p => pr (cpt i 0%nat 0%nat a p))) (fun _ => 0%nat) = 2 /\
  (exists ll, clt_loglik t [fun _ => None] = Ok [ll] /\ pr (ll 0%nat 0%nat 0%nat) = 1) /\
  (forall junk x, outcome (clt_sample false junk t (fun _ => 0%nat) 0 (fun _ => true) (fun _ => None)) x ->
     x 1%nat = Some (INR (junk 1%nat)) /\ x 2%nat = Some (INR (junk 2%nat))).
Proof.
  exists [0; 1; 2]%nat, 2%nat, 1, cyc_par, cyc_cpt, (mkClt [0; 1; 2]%nat 1 1 2 1 cyc_par [0%nat] cyc_cpt).
  split. { unfold mk_cltree. rewrite MleProofs.rle_false by lra. reflexivity. }
  split; [reflexivity|]. split.
  { intros i xp Hi Hxp _. cbn [bsum]. rewrite !cyc_pr. destruct xp as [|[|xp]]; [| |lia]; destruct (Nat.eqb i 0); cbn; lra. }
  split.
  { intros root (H1 & H2 & H3 & H4). assert (root = 0)%nat as ->.
    { destruct root as [|[|[|r]]]; cbn in *; [reflexivity|discriminate|discriminate|lia]. }
    specialize (H4 1%nat ltac:(cbn; lia)).
    assert (forall i, reaches cyc_par 0 i -> i <> 1%nat /\ i <> 2%nat) as NR.
    { intros i R. induction R as [|i p Hi Hp E R IH]; [lia|]. split; intros ->; cbn in E; lia. }
    now apply NR in H4. }
  split. { cbn -[pr cyc_cpt]. change (Pos.to_nat 2) with 2%nat. change (Pos.to_nat 1) with 1%nat. rewrite !cyc_pr. cbn. lra. }
  split.
  { eexists. split; [reflexivity|]. cbn -[pr cyc_cpt]. rewrite pr_lse. cbn -[pr cyc_cpt]. rewrite !pr_ladd, !cyc_pr, pr_Fin0. cbn. lra. }
  intros junk x H. unfold clt_sample in H. cbn [t_query t_parents t_K t_pre negb] in H.
  change (has_structure cyc_par) with true in H.
  change (forallb _ _) with true in H. cbn [negb] in H.
  apply outcome_bind in H. destruct H as (a & Ha & Hx). inversion Hx; subst.
  unfold clt_assign in Ha. apply outcome_bind in Ha. destruct Ha as (xr & _ & Ha). cbn in Ha. inversion Ha; subst.
  split; reflexivity.
Qed.
Print Assumptions C108_cycle_accepted_refuted.

(** C109 (refuted): marginalize returns a leaf over the remaining variables. *)
Theorem C109_marginalize_raises_refuted : forall t marg, (exists v, In v (t_query t) /\ ~ In v marg) -> clt_marginalize t marg = Err.
Proof.
  intros t marg (v & Hv & Hn). unfold clt_marginalize. destruct (forallb _ _) eqn:E; [|reflexivity].
  rewrite forallb_forall in E. specialize (E v Hv). apply existsb_exists in E. destruct E as (u & Hu & E). apply Nat.eqb_eq in E. congruence.
Qed.
Print Assumptions C109_marginalize_raises_refuted.

(** C110 (refuted): sampling from a Sum over a valid CLTree with two channels works. *)
Theorem C110_sum_sampling_refuted : exists query K alpha parents cpt t root lg,
  mk_cltree query 2 1 K alpha parents cpt = Ok t /\ rooted_tree parents root /\
  (forall c, (c < 2)%nat -> normalised_tables 4 K parents (fun i a p => pr (cpt i c 0%nat a p))) /\
  forall junk, may_raise (sum_clt_sample false junk t lg (fun _ => true) (fun _ => None)).
Proof.
  exists [5; 7; 8; 9]%nat, 2%nat, 1, ex_par, ex_cpt, ex_t, 2%nat, (fun _ _ => 0).
  split; [exact ex_built|]. split; [exact ex_tree|]. split; [intros c _; apply ex_normalised|].
  intros junk.
  assert (forall {A} (k : nat -> prog A), pbind (sample_logits false 2 (fun _ => Fin 0)) k =
            Choose 2 (fun i => pr (Fin 0) / bsum 2 (fun _ => pr (Fin 0))) (fun i => k i)) as E.
  { intros A k. unfold sample_logits. destruct (Rlt_dec 0 (bsum 2 (fun _ => pr (Fin 0)))) as [|N]; [reflexivity|].
    exfalso. apply N. cbn. rewrite exp_0. lra. }
  assert (pr (Fin 0) / bsum 2 (fun _ => pr (Fin 0)) <> 0) as W by (cbn; rewrite exp_0; lra).
  unfold sum_clt_sample. cbn [ex_t t_F t_query t_C length pick_channels pbind]. 
  unfold t_F. cbn [t_query length pick_channels pbind]. rewrite E. cbn [pbind].
  apply (r_choose _ _ _ 0%nat); [lia|exact W|]. cbn [pbind]. rewrite E. cbn [pbind].
  apply (r_choose _ _ _ 1%nat); [lia|exact W|]. cbn [pbind]. rewrite E. cbn [pbind].
  apply (r_choose _ _ _ 0%nat); [lia|exact W|]. cbn [pbind]. rewrite E. cbn [pbind].
  apply (r_choose _ _ _ 0%nat); [lia|exact W|]. cbn. constructor.
Qed.
Print Assumptions C110_sum_sampling_refuted.

(** C111 (refuted): maximum likelihood estimation without a structure learns the
    structure of fit_structure.  With scope (1, 2, 0) the columns are permuted
    twice: variables 0 and 1 are equal, variable 2 independent, but the tree links
    both others to variable 2's column. *)
Definition prow (a b c : nat) : R * (nat -> nat) := (1, fun i => nth i [a; b; c] 0%nat).
Definition perm_data : list (R * (nat -> nat)) := [prow 0 0 0; prow 0 0 1; prow 1 1 0; prow 1 1 1].
Lemma clamp_id p : 1 / 100 <= p -> clamp12 p = p.
Proof.
  intros H. unfold clamp12. apply Rmax_left. apply Rle_trans with (1 / 100); [|assumption].
  change (1 / 100) with (1 * / 100). rewrite Rmult_1_l. apply Rinv_le_contravar; lra.
Qed.
Lemma mi_two d i j n : (i < j)%nat -> length d = 4%nat -> lsumR (map fst d) = 4 ->
  (forall f k, (f = i \/ f = j) -> (k < 2)%nat -> wcount d (fun x => Nat.eqb (x f) k) = 2) ->
  (forall a b, (a < 2)%nat -> (b < 2)%nat -> wcount d (fun x => Nat.eqb (x i) a && Nat.eqb (x j) b) = n a b /\ 0 <= n a b) ->
  n 0%nat 0%nat + n 0%nat 1%nat + (n 1%nat 0%nat + n 1%nat 1%nat) = 4 ->
  mi_matrix 2 1 d i j = bsum 2 (fun a => bsum 2 (fun b => (1 + n a b) / 8 * (ln ((1 + n a b) / 8) + 2 * ln 2))).
Proof.
  intros Hij HL HS H1 H2 HN.
  assert (Nat.eqb i j = false) as E1 by (apply Nat.eqb_neq; lia).
  assert (Nat.ltb i j = true) as E2 by (apply Nat.ltb_lt; lia).
  unfold mi_matrix. cbv zeta. rewrite E1, E2, HL, HS. replace (INR 4) with 4 by (cbn; lra).
  rewrite (clamp_id 4) by lra. replace (4 / 4) with 1 by lra.
  assert (forall f k, (f = i \/ f = j) -> (k < 2)%nat ->
    ln (clamp12 ((1 + 1 * wcount d (fun x => Nat.eqb (x f) k)) / clamp12 (bsum 2 (fun k => 1 + 1 * wcount d (fun x => Nat.eqb (x f) k))))) = - ln 2) as LP.
  { intros f k Hf Hk. rewrite (bsum_ext 2 _ (fun _ => 3)) by (intros k' Hk'; rewrite H1 by assumption; lra).
    rewrite H1 by assumption. cbn [bsum]. rewrite (clamp_id (0 + 3 + 3)) by lra.
    replace ((1 + 1 * 2) / (0 + 3 + 3)) with (/ 2) by lra. rewrite clamp_id by lra. apply ln_Rinv. lra. }
  rewrite (bsum_ext 2 (fun a' => bsum 2 (fun b' => 1 + 1 * wcount d (fun x => Nat.eqb (x i) a' && Nat.eqb (x j) b')))
             (fun a => bsum 2 (fun b => 1 + n a b))).
  2:{ intros a Ha. apply bsum_ext. intros b Hb. rewrite (proj1 (H2 a b Ha Hb)). lra. }
  assert (bsum 2 (fun a => bsum 2 (fun b => 1 + n a b)) = 8) as -> by (cbn [bsum]; lra).
  rewrite (clamp_id 8) by lra.
  apply bsum_ext. intros a Ha. apply bsum_ext. intros b Hb. rewrite !LP by auto.
  destruct (H2 a b Ha Hb) as [-> Hn]. rewrite Rmult_1_l. rewrite clamp_id by lra. lra.
Qed.
Lemma ln8 : ln 8 = 3 * ln 2.
Proof. replace 8 with (2 * 2 * 2) by lra. rewrite !ln_mult by lra. lra. Qed.
Lemma ln4 : ln 4 = 2 * ln 2.
Proof. replace 4 with (2 * 2) by lra. rewrite !ln_mult by lra. lra. Qed.
Definition n_dep (a b : nat) : R := if Nat.eqb a b then 2 else 0.
Definition n_ind (a b : nat) : R := 1.
Lemma mi_ind : bsum 2 (fun a => bsum 2 (fun b => (1 + n_ind a b) / 8 * (ln ((1 + n_ind a b) / 8) + 2 * ln 2))) = 0.
Proof.
  unfold n_ind. replace ((1 + 1) / 8) with (/ 4) by lra. rewrite ln_Rinv by lra. rewrite ln4. cbn [bsum]. lra.
Qed.
Lemma mi_dep : 0 < bsum 2 (fun a => bsum 2 (fun b => (1 + n_dep a b) / 8 * (ln ((1 + n_dep a b) / 8) + 2 * ln 2))).
Proof.
  unfold n_dep. cbn [bsum Nat.eqb]. replace ((1 + 2) / 8) with (3 * / 8) by lra. replace ((1 + 0) / 8) with (/ 8) by lra.
  rewrite ln_mult by lra. rewrite ln_Rinv by lra. rewrite ln8.
  assert (4 * ln 2 < 3 * ln 3); [|lra].
  replace (4 * ln 2) with (ln 16) by (replace 16 with (2 * 2 * 2 * 2) by lra; rewrite !ln_mult by lra; lra).
  replace (3 * ln 3) with (ln 27) by (replace 27 with (3 * 3 * 3) by lra; rewrite !ln_mult by lra; lra).
  apply ln_increasing; lra.
Qed.
(** the four rows with column [f] = variable [cs f] *)
Definition cols_data (cs : nat -> nat) : list (R * (nat -> nat)) := map (fun wx => (fst wx, fun i => snd wx (cs i))) perm_data.
Definition c2 (i : nat) : nat := nth (nth i [1; 2; 0]%nat 0%nat) [1; 2; 0]%nat 0%nat.
Ltac two_cases := intros a b Ha Hb; destruct a as [|[|a]]; [| |lia]; destruct b as [|[|b]]; try lia;
  unfold wcount, n_ind, n_dep; cbn; split; lra.
Lemma mi_cols cs i j n : (i < j)%nat -> (cs i < 3)%nat -> (cs j < 3)%nat ->
  (forall a b, (a < 2)%nat -> (b < 2)%nat ->
     wcount (cols_data cs) (fun x => Nat.eqb (x i) a && Nat.eqb (x j) b) = n a b /\ 0 <= n a b) ->
  n 0%nat 0%nat + n 0%nat 1%nat + (n 1%nat 0%nat + n 1%nat 1%nat) = 4 ->
  mi_matrix 2 1 (cols_data cs) i j = bsum 2 (fun a => bsum 2 (fun b => (1 + n a b) / 8 * (ln ((1 + n a b) / 8) + 2 * ln 2))).
Proof.
  intros Hij Hi Hj H HN. apply mi_two; auto.
  - cbn. lra.
  - intros f k Hf Hk. assert (cs f < 3)%nat as Hc by (destruct Hf; subst; assumption).
    unfold wcount, cols_data, perm_data. cbn [map fst snd prow lsumR].
    destruct (cs f) as [|[|[|c]]]; [| | |lia]; destruct k as [|[|k]]; try lia; cbn; lra.
Qed.
Lemma prim3 w : w 0%nat 1%nat = 0 -> w 0%nat 2%nat = 0 -> 0 < w 1%nat 2%nat -> prim 3 w 0 = Ok [-1; 0; 1]%Z.
Proof.
  intros W1 W2 W3. unfold prim. cbn [Nat.eqb]. change (Nat.ltb 0 3) with true. cbn [negb Nat.sub prim_loop].
  set (s0 := prim_init w 0).
  assert (argmax 3 (fun j => if pr_in s0 j then NInf else pr_w s0 j) = 1%nat) as E1.
  { cbn. rewrite W1, W2. destruct (Rlt_dec 0 0); [lra|reflexivity]. }
  unfold prim_step at 1. cbv zeta. rewrite E1. cbn [s0 prim_init pr_in pr_w pr_p pr_par Nat.eqb setf bind].
  unfold prim_step. cbv zeta. cbn [pr_in pr_w pr_p pr_par]. 
  match goal with |- context [argmax 3 ?g] => assert (argmax 3 g = 2%nat) as E2 end.
  { cbn. rewrite W2. destruct (Rlt_dec 0 (w 1%nat 2%nat)); [reflexivity|lra]. }
  rewrite E2. cbn. rewrite W2. destruct (Rlt_dec 0 (w 1%nat 2%nat)); [reflexivity|lra].
Qed.
Theorem C111_mle_structure_refuted : exists query K alpha n d parents cols E,
  NoDup query /\ resolve_columns query n = Ok cols /\ mle_structure query K alpha n d = Ok parents /\ spanning (length query) E /\
  weight (mi_matrix K alpha (map (fun wx => (fst wx, fun i => snd wx (nth i cols 0%nat))) d)) (tree_edges parents) <
  weight (mi_matrix K alpha (map (fun wx => (fst wx, fun i => snd wx (nth i cols 0%nat))) d)) E.
Proof.
  exists [1; 2; 0]%nat, 2%nat, 1, 3%nat, perm_data, [-1; 0; 1]%Z, [1; 2; 0]%nat, [(0, 1); (0, 2)]%nat.
  split; [repeat constructor; cbn; intuition lia|]. split; [reflexivity|]. split; [|split].
  - unfold mle_structure. change (resolve_columns [1; 2; 0]%nat 3) with (Ok (A := list nat) [1; 2; 0]%nat). cbn [bind].
    unfold fit_structure. change (resolve_columns [1; 2; 0]%nat (length [1; 2; 0]%nat)) with (Ok (A := list nat) [1; 2; 0]%nat). cbn [bind].
    rewrite map_map. change (length [1; 2; 0]%nat) with 3%nat.
    match goal with |- prim 3 (mi_matrix 2 1 ?dd) 0 = _ => change dd with (cols_data c2) end.
    set (w := mi_matrix 2 1 (cols_data c2)).
    assert (w 0%nat 1%nat = 0) as W1. { unfold w. rewrite <- mi_ind. apply mi_cols; cbn; try lia; try (unfold n_ind; lra). two_cases. }
    assert (w 0%nat 2%nat = 0) as W2. { unfold w. rewrite <- mi_ind. apply mi_cols; cbn; try lia; try (unfold n_ind; lra). two_cases. }
    assert (0 < w 1%nat 2%nat) as W3.
    { unfold w. rewrite (mi_cols _ 1 2 n_dep); cbn; try lia; try (unfold n_dep; cbn; lra); [exact mi_dep|two_cases]. }
    now apply prim3.
  - split; [|split; [|reflexivity]].
    + intros u v [[= <- <-]|[[= <- <-]|[]]]; cbn; lia.
    + assert (forall v, (v < 3)%nat -> linked [(0, 1); (0, 2)]%nat 0 v) as L.
      { intros [|[|[|v]]] Hv; [apply l_refl| | |lia]; apply linked_edge; left; cbn; auto. }
      intros u v Hu Hv. eapply linked_trans; [apply linked_sym|]; now apply L.
  - change (map (fun wx => (fst wx, fun i => snd wx (nth i [1; 2; 0]%nat 0%nat))) perm_data) with (cols_data (fun i => nth i [1; 2; 0]%nat 0%nat)).
    set (w := mi_matrix 2 1 (cols_data (fun i => nth i [1; 2; 0]%nat 0%nat))).
    assert (w 0%nat 1%nat = 0) as W1. { unfold w. rewrite <- mi_ind. apply mi_cols; cbn; try lia; try (unfold n_ind; lra). two_cases. }
    assert (w 1%nat 2%nat = 0) as W2. { unfold w. rewrite <- mi_ind. apply mi_cols; cbn; try lia; try (unfold n_ind; lra). two_cases. }
    assert (0 < w 0%nat 2%nat) as W3.
    { unfold w. rewrite (mi_cols _ 0 2 n_dep); cbn; try lia; try (unfold n_dep; cbn; lra); [exact mi_dep|two_cases]. }
    clearbody w. unfold weight, tree_edges. cbn [length seq flat_map nth Z.eqb Z.to_nat app map lsumR fst snd].
    change (Pos.to_nat 1) with 1%nat. cbn. rewrite W1, W2. lra.
Qed.
Print Assumptions C111_mle_structure_refuted.
