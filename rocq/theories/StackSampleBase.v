(** Sampling below the layers of a stack: Factorize and the leaves; the whole stack. *)
From Coq Require Import List Arith Bool Reals Lia Lra Permutation FunctionalExtensionality.
From Verif Require Import Base ScopeModel ScopeProofs CircuitModel CircuitSpec CircuitBasics CircuitEval Integral CircuitMarg CircuitProps
  SampleModel SampleSpec SampleExp SampleProofs SampleTop SampleApi EmModel SplitModel SplitProofs LayerModel LayerSpec LayerProofs FactorModel FactorProofs FactorTop
  StackModel StackSpec StackProofs StackDist StackTop StackRat StackPostModel StackSampleModel StackSampleStep StackSamplePair StackSampleLeaf StackSampleSpec.
Import ListNotations.
Local Open Scope R_scope.


Section LeafLayer.
Variables (D : nat -> domain) (W : nat) (ev : option row) (e : row).
Variables (h : nat -> R -> R) (I : leaf -> nat -> nat -> nat -> R) (rep : nat).
Hypothesis hpos : forall v a, 0 <= h v a.

Lemma cat_rspec sc cs : wf (MCat false sc cs) -> (rep < repetitions (out_shape (MCat false sc cs)))%nat -> Forall wf cs ->
  Forall (rspec D W ev e h I rep) cs -> rspec D W ev e h I rep (MCat false sc cs).
Proof.
  intros Wf Rp Wc Scs t (Lc & Lm & Hrp & Hci) HQ.
  pose proof (wf_wf1 _ Wf) as [_ _ _ HD _ _ Cp _].
  assert (forall x, sample_m false W ev (MCat false sc cs) t x = cat_sample W ev false t cs 0 x) as EQ.
  { intros x. change (sample_m false W ev (MCat false sc cs) t x) with
     (let sh := out_shape (MCat false sc cs) in
      if validate [1%nat; features sh] (channels sh) (repetitions sh) t then
        match broadcast (features sh) t with
        | Err => Raise
        | Ok t1 => if cat_ok false cs t1 then cat_sample W ev false t1 cs 0 x else Raise end
      else Raise). cbv zeta.
    rewrite (validate_fullr rep); auto; [| |congruence|rewrite Lc; exact Hci].
    - rewrite bcast_full by assumption. reflexivity.
    - right. left. now rewrite Lc. }
  pose proof Wf as Wf'. cbn in Wf'. destruct Wf' as (Hne & _ & HF & _).
  assert (features (out_shape (MCat false sc cs)) = nsum (map (fun c => features (out_shape c)) cs)) as EF by apply out_shape_cat1.
  eapply spec_ext; [intros x; symmetry; apply (EQ x)| | | |
    apply (cat1_go_rspec D W ev e h I rep t Hrp (eq_trans Lm (eq_sym Lc)) cs 0 Wc Scs)].
  - intros v. unfold Cset. rewrite EF. reflexivity.
  - intros y. unfold Tset. rewrite EF. reflexivity.
  - unfold Rsetr. rewrite EF. reflexivity.
  - now rewrite Lc, EF.
  - intros c f Hc Hf. rewrite Forall_forall in HF. rewrite <- EF in Hf. specialize (Hci f Hf).
    rewrite (HF c Hc). cbn [plus]. destruct cs; [congruence|exact Hci].
  - rewrite <- EF. exact HD.
  - rewrite <- EF. exact HQ.
Qed.
Lemma leaves_rspec reps leaves m : Forall built leaves -> leaf_input leaves = Ok m -> built m -> leafy reps leaves -> (rep < reps)%nat ->
  leaf_int D h I m -> cols_fine W m -> rspec D W ev e h I rep m.
Proof.
  intros Bl Hin Bm Hl Hr HI Hc.
  assert (One : forall l, In (MLeaf l) leaves -> l_rep l = reps -> leaf_int D h I (MLeaf l) -> cols_fine W (MLeaf l) -> rspec D W ev e h I rep (MLeaf l)).
  { intros l Hl' El HI' Hc'. apply leaf_rspec; auto; [|lia].
    rewrite Forall_forall in Bl. specialize (Bl _ Hl'). exact (built_wf _ Bl). }
  destruct leaves as [|m0 [|m1 rest]]; [discriminate| |].
  - injection Hin as <-. inversion Hl as [|? ? (l & -> & El) _]; subst. apply One; auto. now left.
  - cbn [leaf_input] in Hin. unfold mk_cat in Hin. destruct (forallb _ _); [|discriminate].
    destruct (all_pairwise_disjoint _) as [b|]; [|discriminate]. cbn [bind] in Hin. destruct b; [|discriminate].
    destruct (join_all _) as [sc|] eqn:Ej; [|discriminate]. cbn [bind] in Hin. injection Hin as <-.
    set (cs := m0 :: m1 :: rest) in *. pose proof (built_wf _ Bm) as Wf. pose proof (wf_cat_children _ _ _ Wf) as Wc.
    apply cat_rspec; auto.
    + inversion Hl as [|? ? (l & El & El') _]; subst. cbn. exact Hr.
    + apply Forall_forall. intros ch Hch. destruct (proj1 (Forall_forall _ _) Hl ch Hch) as (l & El & Er). subst ch. apply One; auto.
      * intros l0 f c r Hl0 Hrange. apply HI; [|exact Hrange]. cbn [leaves_of] in *. apply in_flat_map. exists (MLeaf l). split; [exact Hch|exact Hl0].
      * intros v Hv. apply Hc. exact (cat_child_scope _ _ _ _ v Wf Hch Hv).
Qed.
End LeafLayer.

Lemma bprod_swap n k (f : nat -> nat -> R) : bprod n (fun i => bprod k (fun j => f i j)) = bprod k (fun j => bprod n (fun i => f i j)).
Proof.
  induction n as [|n IH]; cbn [bprod].
  - symmetry. apply bprod_one. reflexivity.
  - rewrite IH, <- bprod_mult. reflexivity.
Qed.
Lemma bprod_pick n k a : (k < n)%nat -> bprod n (fun i => if Nat.eqb i k then a else 1) = a.
Proof.
  intros H. rewrite (bprod_isolate n _ k H), Nat.eqb_refl, bprod_one; [ring|]. intros i _. now destruct (Nat.eqb i k).
Qed.

Lemma leafy_reps leaves m s reps : Forall built leaves -> leaf_input leaves = Ok m -> built m -> ll_shape m = Ok s -> leafy reps leaves -> repetitions s = reps.
Proof.
  intros Bl Hin Bm Es Hl. destruct (ll_shape_spec m s (built_wf m Bm) Es) as (_ & _ & ->).
  destruct leaves as [|m0 [|m1 rest]]; [discriminate| |]; inversion Hl as [|? ? (l & -> & El) _]; subst.
  - injection Hin as <-. reflexivity.
  - cbn [leaf_input] in Hin. unfold mk_cat in Hin. destruct (forallb _ _); [|discriminate].
    destruct (all_pairwise_disjoint _) as [b|]; [|discriminate]. cbn [bind] in Hin. destruct b; [|discriminate].
    destruct (join_all _) as [sc|] eqn:Ej; [|discriminate]. cbn [bind] in Hin. injection Hin as <-. reflexivity.
Qed.

Section Stack.
Variables (leaves : list module) (m : module) (s : shape) (depth reps : nat) (d : draw) (fm : fact).
Hypothesis (Bl : Forall built leaves) (Hin : leaf_input leaves = Ok m) (Hlf : leafy reps leaves).
Hypothesis (Bm : built m) (Am : aligned m) (Es : ll_shape m = Ok s).
Let nf := length (query (scope_of m)).
Hypothesis (One : features (out_shape m) = nf) (HRpos : (0 < reps)%nat).
Hypothesis Hs : Permutation (d_sizes d) (base_sizes nf (2 ^ depth)).
Hypothesis Hp : forall r, Permutation (d_perms d r) (seq 0 nf).
Hypothesis Hm : mk_factorize nf nf (channels (out_shape m)) depth reps (d_sizes d) (d_perms d) = Ok fm.
Notation bs := (base_shape m depth reps).

Lemma s_reps : repetitions s = reps.
Proof. exact (leafy_reps leaves m s reps Bl Hin Bm Es Hlf). Qed.

Lemma fact_part t : good bs t -> exists t', fact_route fm t = Ok t' /\ tfullr (c_rep t) m t' /\ c_mask t' = repeat true nf /\
  forall p : nat -> nat -> nat -> R, bprod nf (fun i => p i (nth i (c_ci t') 0%nat) (c_rep t)) = Wt (2 ^ depth) (group_prob nf (fc_mat fm) p) t.
Proof.
  intros G. destruct (G) as (L & M & Hr & Hc). cbn [base_shape features channels repetitions] in L, M, Hr, Hc.
  assert (P2 : (0 < 2 ^ depth)%nat) by apply pow_pos.
  assert (V : validate [1%nat; (2 ^ depth)%nat] (channels (out_shape m)) reps t = true).
  { apply (validate_good _ _ _ t bs G); cbn [base_shape features channels repetitions]; auto.
    - right. now left.
    - pose proof (Hc 0%nat P2). lia. }
  destruct (route_ok _ _ _ _ _ _ _ Hs Hp Hm t V) as (t' & E & L1 & L2 & L3 & K). exists t'.
  assert (CA : forall o, (o < 2 ^ depth)%nat -> chan_at t o = nth o (c_ci t) 0%nat).
  { intros o Ho. unfold chan_at. destruct (Nat.eqb_spec (length (c_ci t)) 1) as [E1|]; [|reflexivity]. assert (o = 0)%nat as -> by lia. now destruct (c_ci t). }
  assert (MA : forall o, (o < 2 ^ depth)%nat -> mask_at t o = true).
  { intros o Ho. unfold mask_at. rewrite M. destruct (Nat.eqb_spec (length (c_ci t)) 1) as [E1|]; [|now apply nth_repeat_lt].
    assert (o = 0)%nat as -> by lia. destruct (2 ^ depth)%nat; [lia|reflexivity]. }
  assert (OW : forall i, (i < nf)%nat -> exists o, (o < 2 ^ depth)%nat /\ fc_mat fm (c_rep t) i o = true /\ nth i (c_ci t') 0%nat = nth o (c_ci t) 0%nat /\ nth i (c_mask t') false = true).
  { intros i Hi. destruct (owner_exists _ _ _ _ _ _ _ _ Hs Hp Hm (c_rep t) i Hi) as (o & Ho & Eo). exists o. destruct (K i o Eo) as [A B].
    rewrite CA in A by exact Ho. rewrite MA in B by exact Ho. auto. }
  split; [exact E|]. split; [|split].
  - split; [now rewrite L1|]. split; [now rewrite L2|]. split; [exact L3|]. rewrite One. intros f Hf. destruct (OW f Hf) as (o & Ho & _ & -> & _). now apply Hc.
  - apply (nth_ext _ _ false false); [now rewrite L2, repeat_length|]. intros i Hi. rewrite L2 in Hi. rewrite nth_repeat_lt by exact Hi. destruct (OW i Hi) as (o & _ & _ & _ & ->). reflexivity.
  - intros p. unfold Wt, group_prob. rewrite bprod_swap. apply bprod_ext. intros i Hi. destruct (OW i Hi) as (o & Ho & Eo & -> & _).
    symmetry. rewrite (bprod_ext _ _ (fun f => if Nat.eqb f o then p i (nth o (c_ci t) 0%nat) (c_rep t) else 1)); [now apply bprod_pick|].
    intros f Hf. destruct (Nat.eqb_spec f o) as [->|N]; [now rewrite Eo|]. destruct (fc_mat fm (c_rep t) i f) eqn:Ef; [|reflexivity].
    exfalso. apply N. exact (owner_unique _ _ _ _ _ _ _ _ Hs Hp Hm (c_rep t) i f o Ef Eo).
Qed.

Variables (D : nat -> domain) (W : nat) (ev : option row) (e : row) (h : nat -> R -> R) (I : leaf -> nat -> nat -> nat -> R).
Hypothesis (hpos : forall v a, 0 <= h v a) (HI : leaf_int D h I m) (HW : forall v, vars m v -> (v < W)%nat).
Hypothesis Hfin : forall f c r, in_shape s f c r -> loglik m e f c r <> NInf.
Hypothesis Hev : ev = Some e \/ (ev = None /\ forall v, vars m v -> e v = None).
Definition base_h : nat -> nat -> nat -> R := group_prob nf (fc_mat fm) (fun i c r => pev (sc_h e I) m i c r).

Lemma in_s i c r : (i < nf)%nat -> (c < channels (out_shape m))%nat -> (r < reps)%nat -> in_shape s i c r.
Proof.
  intros Hi Hc Hr. destruct (ll_shape_spec m s (built_wf m Bm) Es) as (E1 & E2 & E3). split; [rewrite E1, One; exact Hi|]. split; [now rewrite E2|now rewrite s_reps].
Qed.
Lemma base_eq f c r : (r < reps)%nat -> base m s fm e f c r = group_prob nf (fc_mat fm) (fun i c r => prob m e i c r) f c r.
Proof. intros Hr. unfold base, group_prob. apply bprod_ext. intros i Hi. destruct (fc_mat fm r i f); [|reflexivity]. unfold leaf_prob. rewrite s_reps, bidx_reps by exact Hr. reflexivity. Qed.
Lemma base_one : (forall v, vars m v -> e v = None) -> forall f c r, in_shape bs f c r -> base m s fm e f c r = 1.
Proof.
  intros He f c r (If & Ic & Ir). cbn [base_shape features channels repetitions] in If, Ic, Ir. rewrite base_eq by exact Ir. unfold group_prob.
  apply bprod_one. intros i Hi. destruct (fc_mat fm r i f); [|reflexivity].
  apply prob_all_nan; [exact (built_wf m Bm)|exact Am|exact (in_shape_pos m s _ _ _ (built_wf m Bm) Es (in_s i c r Hi Ic Ir))|].
  intros v Hv. apply He. unfold vars. apply (wf_union m (wf_wf1 m (built_wf m Bm))). exists i. split; [rewrite One; exact Hi|exact Hv].
Qed.

Lemma leaf_part t vs : good bs t -> missing e (query (scope_of m)) vs ->
  expects D (pbind (of_result (fact_route fm t)) (fun t2 => sample_m false W ev m t2 e)) (tests h vs) (ratio (2 ^ depth) base_h (base m s fm e) t).
Proof.
  clear Hev.  intros G [ND Mi]. destruct (G) as (_ & _ & Hr & _). cbn [base_shape repetitions] in Hr.
  destruct (fact_part t G) as (t' & E & Tf & Mk & Wp). rewrite E. cbn [of_result pbind].
  pose proof (leaves_rspec D W ev e h I (c_rep t) hpos reps leaves m Bl Hin Bm Hlf Hr HI HW) as S.
  pose proof (built_wf m Bm) as Wf. pose proof (wf_wf1 m Wf) as W1.
  assert (NZ : forall i, (i < nf)%nat -> prob m e i (nth i (c_ci t') 0%nat) (c_rep t) <> 0).
  { intros i Hi. unfold prob. pose proof (Hfin i (nth i (c_ci t') 0%nat) (c_rep t)) as F.
    destruct (loglik m e i (nth i (c_ci t') 0%nat) (c_rep t)) as [|v]; [|cbn [pr]; apply Rgt_not_eq, exp_pos].
    exfalso. apply F; [|reflexivity]. apply in_s; [exact Hi| |exact Hr]. apply (proj2 (proj2 (proj2 Tf))). now rewrite One. }
  destruct (S t' Tf) as [T S'].
  { rewrite One. intros f Hf _. exact (NZ f Hf). }
  destruct (S' e (fun v _ => eq_refl)) as [S1 _]. specialize (S1 (fun _ => 1) (fun _ _ => eq_refl)). cbn beta in S1. rewrite Rmult_1_l in S1.
  assert (EV : ratio (2 ^ depth) base_h (base m s fm e) t = Rsetr e I (c_rep t) m t').
  { unfold ratio, base_h. rewrite <- (Wp (fun i c r => pev (sc_h e I) m i c r)).
    assert (EB : Wt (2 ^ depth) (base m s fm e) t = bprod nf (fun i => prob m e i (nth i (c_ci t') 0%nat) (c_rep t))).
    { rewrite (Wp (fun i c r => prob m e i c r)). unfold Wt. apply bprod_ext. intros f Hf. now rewrite base_eq. }
    rewrite EB, <- bprod_div by exact NZ. unfold Rsetr. rewrite One, Mk. apply bprod_ext. intros i Hi. now rewrite nth_repeat_lt. }
  rewrite EV. eapply expects_ext; [|exact S1]. intros y _. cbn beta. rewrite Rmult_1_l. unfold Tset. rewrite Mk, One.
  rewrite (bprod_ext nf _ (fun f => tst e h (nthq m f) y)) by (intros f Hf; now rewrite nth_repeat_lt).
  unfold tst, tests. rewrite <- One, <- (wf_len m W1). unfold nthq. rewrite <- lprod_concat.
  rewrite <- lprod_filter with (b := fun v => isnone (e v)) (f := fun v => cell (h v) (y v)). apply lprod_perm.
  apply NoDup_Permutation.
  - apply NoDup_filter. now apply concat_fts_NoDup.
  - exact ND.
  - intros v. rewrite filter_In, Mi. assert (Q : In v (concat (fts m)) <-> In v (query (scope_of m))).
    { rewrite (wf_union m W1). unfold nthq. rewrite in_concat. rewrite <- (wf_len m W1). split.
      - intros (q & Hq & Hv). apply In_nth with (d := []) in Hq. destruct Hq as (i & Hi & <-). exists i. auto.
      - intros (i & Hi & Hv). exists (nth i (fts m) []). split; [now apply nth_In|exact Hv]. }
    rewrite Q. destruct (e v); cbn; intuition congruence.
Qed.

Lemma from_ok st ops ls t vs : k_leaf st = m -> k_fact st = fm -> routes ops bs bs -> assemble bs ops = Ok ls -> good (shs ops bs) t ->
  missing e (query (scope_of m)) vs ->
  expects D (stack_sample_from false W st ls ev t e) (tests h vs)
    (ratio (features (shs ops bs)) (sems ops bs base_h) (sems ops bs (base m s fm e)) t).
Proof.
  intros El Ef HR Ea G Mi. unfold stack_sample_from. rewrite El, Ef.
  assert (X : exists b, (match ev with None => Ok None | Some e0 => bind (leaf_tensor m e0) (fun b => bind (fact_run fm b) (fun b' => Ok (Some b'))) end) = Ok b /\
    cached b bs (base m s fm e)).
  { destruct Hev as [-> | [-> He]].
    - destruct (fact_holds m s depth reps d fm Bm Es One (or_introl s_reps) HRpos Hm e Hfin) as (t0 & E0 & H0).
      exists (Some t0). split; [|exact H0]. destruct (leaf_tensor m e); [|discriminate]. cbn [bind] in *. rewrite E0. reflexivity.
    - exists None. split; [reflexivity|]. cbn [cached]. exact (base_one He). }
  destruct X as (b & -> & Hb). cbn [of_result pbind].
  destruct (down_ok D ops bs bs ls HR Ea b (base m s fm e) t Hb G) as [A B].
  eapply (expects_bind D _ _ _ (ratio (features bs) base_h (base m s fm e))); [exact (B base_h)|].
  intros t1 H1. exact (leaf_part t1 vs (A t1 H1) Mi).
Qed.
End Stack.

Section Uncached.
Variables (leaves : list module) (m : module) (s : shape) (depth reps : nat) (d : draw) (fm : fact).
Hypothesis (Bl : Forall built leaves) (Hin : leaf_input leaves = Ok m) (Hlf : leafy reps leaves).
Hypothesis (Bm : built m) (Am : aligned m) (Es : ll_shape m = Ok s).
Let nf := length (query (scope_of m)).
Hypothesis (One : features (out_shape m) = nf) (HRpos : (0 < reps)%nat).
Hypothesis Hs : Permutation (d_sizes d) (base_sizes nf (2 ^ depth)).
Hypothesis Hp : forall r, Permutation (d_perms d r) (seq 0 nf).
Hypothesis Hm : mk_factorize nf nf (channels (out_shape m)) depth reps (d_sizes d) (d_perms d) = Ok fm.
Notation bs := (base_shape m depth reps).
Variables (D : nat -> domain) (W : nat) (e : row) (h : nat -> R -> R) (I : leaf -> nat -> nat -> nat -> R).
Hypothesis (hpos : forall v a, 0 <= h v a) (HI : leaf_int D h I m) (HW : forall v, vars m v -> (v < W)%nat).
Hypothesis Hfin : forall f c r, in_shape s f c r -> loglik m e f c r <> NInf.
Local Notation base_h' := (base_h m fm e I).
(** without cached log-likelihoods nothing is learnt from observed cells: channels and
    repetitions are drawn from the weights, every leaf conditions on its own cell only *)
Lemma from_none st ops ls t vs : k_leaf st = m -> k_fact st = fm -> routes ops bs bs -> assemble bs ops = Ok ls -> good (shs ops bs) t ->
  missing e (query (scope_of m)) vs ->
  expects D (stack_sample_from false W st ls None t e) (tests h vs)
    (ratio (features (shs ops bs)) (sems ops bs (fun f c r => base_h' f c r / base m s fm e f c r)) (sems ops bs (fun _ _ _ => 1)) t).
Proof.
  intros El Ef HR Ea G Mi. unfold stack_sample_from. rewrite El, Ef. cbn [of_result pbind].
  destruct (down_ok D ops bs bs ls HR Ea None (fun _ _ _ => 1) t (fun _ _ _ _ => eq_refl) G) as [A B].
  eapply (expects_bind D _ _ _ (ratio (features bs) (fun f c r => base_h' f c r / base m s fm e f c r) (fun _ _ _ => 1))); [exact (B _)|].
  intros t1 H1. pose proof (A t1 H1) as G1.
  pose proof (leaf_part leaves m s depth reps d fm Bl Hin Hlf Bm Es One HRpos Hs Hp Hm D W None e h I hpos HI HW Hfin t1 vs G1 Mi) as Lp.
  assert (E : ratio (features bs) (fun f c r => base_h' f c r / base m s fm e f c r) (fun _ _ _ => 1) t1 = ratio (2 ^ depth) base_h' (base m s fm e) t1).
  { unfold ratio, Wt. cbn [base_shape features]. rewrite (bprod_one (2 ^ depth) (fun _ => 1)) by reflexivity. rewrite bprod_div; [unfold Rdiv; rewrite Rinv_1; ring|].
    intros f Hf. apply Rgt_not_eq.
    destruct (fact_holds m s depth reps d fm Bm Es One (or_introl (s_reps leaves m s reps Bl Hin Hlf Bm Es)) HRpos Hm e Hfin) as (t0 & _ & H0).
    apply (holds_pos t0 bs _ f _ _ H0). destruct G1 as (_ & _ & Hr1 & Hc1). split; [exact Hf|]. split; [exact (Hc1 f Hf)|exact Hr1]. }
  rewrite E. exact Lp.
Qed.
End Uncached.
