(** Compiled Chow-Liu tree mixtures. *)
From Coq Require Import List Arith ZArith Bool Reals Lia Lra.
From Verif Require Import Base ScopeModel CircuitModel CircuitBasics CircuitEval LeafModel LeafProofs SampleModel SampleSpec SampleExp CltModel CltSpec CltDfs CltElim CltTop CltFit CmsModel CmsSpec CmsProofs CmsTop.
Import ListNotations.
Local Open Scope R_scope.

Lemma mapr_forall2 {A B} (f : A -> result B) (P : A -> B -> Prop) l : Forall (fun a => exists b, f a = Ok b /\ P a b) l ->
  exists bs, mapr f l = Ok bs /\ Forall2 P l bs.
Proof.
  induction 1 as [|a l (b & E & Pb) _ (bs & Es & Ps)]; [exists []; split; [reflexivity|constructor]|].
  exists (b :: bs). cbn [mapr]. rewrite E. cbn [bind]. rewrite Es. cbn [bind]. split; [reflexivity|now constructor].
Qed.

Lemma exp_log_softmax n g k : (0 < n)%nat -> exp (log_softmax n g k) = exp (g k) / bsum n (fun j => exp (g j)).
Proof.
  intros H. assert (0 < bsum n (fun j => exp (g j))) as P.
  { destruct n as [|n]; [lia|]. cbn [bsum]. assert (0 <= bsum n (fun j => exp (g j))).
    { apply bsum_nonneg. intros; apply Rlt_le, exp_pos. } pose proof (exp_pos (g n)). lra. }
  unfold log_softmax, Rminus. rewrite exp_plus, exp_Ropp, exp_ln by exact P. reflexivity.
Qed.

Lemma decode_table F K root raw f a p : (0 < K)%nat -> exp (decode_cpt F K root raw f a p) = table K root raw f a p.
Proof.
  intros H. unfold decode_cpt, table. destruct (Nat.eqb f root); rewrite exp_log_softmax by exact H; reflexivity.
Qed.

Lemma forall2_nth {A B} (P : A -> B -> Prop) l l' : Forall2 P l l' -> forall k a b, nth_error l k = Some a -> nth_error l' k = Some b -> P a b.
Proof. induction 1 as [|a b la lb Hab _ IH]; intros [|k] a' b'; cbn; try discriminate; eauto. congruence. Qed.
Lemma forall2_len {A B} (P : A -> B -> Prop) l l' : Forall2 P l l' -> length l' = length l.
Proof. induction 1; cbn; congruence. Qed.
Lemma seq_nth_error n i : (i < n)%nat -> nth_error (seq 0 n) i = Some i.
Proof. intros H. rewrite (nth_error_nth' _ 0%nat) by now rewrite seq_length. now rewrite seq_nth. Qed.

Lemma nth_error_ext_list {A} (l l' : list A) : length l = length l' ->
  (forall b a a', nth_error l b = Some a -> nth_error l' b = Some a' -> a = a') -> l = l'.
Proof.
  revert l'. induction l as [|a l IH]; intros [|a' l'] L H; try discriminate; [reflexivity|]. f_equal; [exact (H 0%nat a a' eq_refl eq_refl)|].
  apply IH; [now injection L|]. intros b. exact (H (S b)).
Qed.
Lemma close_pos s : Rabs (s - 1) <= / 10 ^ 6 -> 0 < s.
Proof.
  intros H. pose proof (Rle_abs (- (s - 1))) as A. rewrite Rabs_Ropp in A. assert (/ 10 ^ 6 < / 1) by (apply Rinv_lt_contravar; lra). rewrite Rinv_1 in *. lra.
Qed.
Lemma bprod_one n : bprod n (fun _ => 1) = 1.
Proof. induction n as [|n IH]; cbn [bprod]; [reflexivity|]. rewrite IH. ring. Qed.
(** *** the training score of a tree *)
Lemma bprod_split n r c h : (r < n)%nat ->
  bprod n (fun i => if Nat.eqb i r then c else h i) = c * bprod n (fun i => if Nat.eqb i r then 1 else h i).
Proof.
  induction n as [|n IH]; intros H; [lia|]. cbn [bprod]. destruct (Nat.eqb_spec n r) as [->|N].
  - rewrite Rmult_1_r. rewrite Rmult_comm. f_equal. apply bprod_ext. intros i Hi. destruct (Nat.eqb_spec i r); [lia|reflexivity].
  - rewrite IH by lia. ring.
Qed.
Lemma tree_ll_prob F K parents root raw x : rooted_tree parents root -> length parents = F -> (forall f, (f < F)%nat -> (x f < K)%nat) ->
  exp (tree_ll F K root parents (decode_cpt F K root raw) x) = tree_prob parents (table K root raw) x.
Proof.
  intros T HF HX. pose proof T as (HR & PR & UN & RE). unfold tree_ll, tree_prob. rewrite HF in *.
  set (g := fun i => if Z.eqb (par parents i) (-1) then 1 else table K root raw i (x i) (x (Z.to_nat (par parents i)))).
  assert (FL : forall m a, (m <= F)%nat -> exp (fold_left (fun acc i =>
      if Z.eqb (par parents i) (-1) then acc
      else let lin := (x i * K + x (Z.to_nat (par parents i)))%nat in acc + decode_cpt F K root raw i (lin / K)%nat (lin mod K)%nat)
    (seq 0 m) a) = exp a * bprod m g).
  { induction m as [|m IH]; intros a Hm; [cbn; ring|]. rewrite seq_S, fold_left_app. cbn [fold_left plus bprod].
    unfold g at 2. destruct (Z.eqb_spec (par parents m) (-1)) as [E|E]; [rewrite IH by lia; ring|].
    cbv zeta. rewrite exp_plus, IH by lia. rewrite Rmult_assoc. f_equal. f_equal.
    assert (m <> root) as NR by (intros ->; apply E; exact PR).
    destruct (tree_parent parents root m T ltac:(rewrite HF; lia)) as [[? _]|[_ (p & Hp & Ep)]]; [contradiction|]. 
    assert (par parents m = Z.of_nat p) as -> by exact Ep. rewrite Nat2Z.id. rewrite HF in Hp. pose proof (HX m ltac:(lia)). pose proof (HX p Hp).
    rewrite Nat.div_add_l, (Nat.div_small (x p)), Nat.add_0_r by lia. rewrite Nat.add_comm, Nat.mod_add, Nat.mod_small by lia.
    apply decode_table. lia. }
  rewrite FL by lia. rewrite decode_table by (specialize (HX root HR); lia).
  transitivity (bprod F (fun i => if Nat.eqb i root then table K root raw root (x root) 0 else g i)).
  - rewrite bprod_split by exact HR. f_equal. apply bprod_ext. intros i Hi. destruct (Nat.eqb_spec i root) as [->|N]; [|reflexivity].
    unfold g, par. now rewrite PR.
  - apply bprod_ext. intros i Hi. destruct (Nat.eqb_spec i root) as [->|N]; [now rewrite PR|].
    unfold g, par. destruct (Z.eqb_spec (nth i parents (-1)%Z) (-1)) as [E|E]; [exfalso; apply N, UN; auto|reflexivity].
Qed.

Section Trees.
  Variables (F K : nat) (alpha : R) (parents : list Z) (root n : nat) (raw : nat -> nat -> R) (w : nat -> R).
  Hypothesis T : rooted_tree parents root.
  Hypothesis HF : length parents = F.

  Definition cpt_at (i : nat) : nat -> nat -> nat -> nat -> nat -> lval :=
    fun f (_ _ : nat) xi xp => Fin (decode_cpt F K (root_of parents) (raw i) f xi xp).
  
  Lemma trees_inv m0 ts : compile_trees F K alpha parents m0 raw = Ok ts -> length ts = m0 /\
    forall i t, nth_error ts i = Some t -> mk_cltree (seq 0 F) 1 1 K alpha parents (cpt_at i) = Ok t.
  Proof.
    unfold compile_trees. generalize (seq_nth_error m0) as SN. generalize (seq_length m0 0). generalize (seq 0 m0) as l.
    intros l LL SN E.
    assert (Forall2 (fun i t => mk_cltree (seq 0 F) 1 1 K alpha parents (cpt_at i) = Ok t) l ts) as F2.
    { clear LL SN. revert ts E. induction l as [|i l IH]; intros ts E; cbn [mapr] in E; [injection E as <-; constructor|].
      destruct (mk_cltree _ _ _ _ _ _ _) as [t|] eqn:ET; [|discriminate]. cbn [bind] in E. destruct (mapr _ l) as [ts'|] eqn:ES; [|discriminate]. cbn [bind] in E. injection E as <-.
      constructor; [exact ET|]. now apply IH. }
    assert (length ts = m0) as L by (rewrite (forall2_len _ _ _ F2); exact LL). split; [exact L|].
    intros i t Hi. assert (i < m0)%nat as Him by (rewrite <- L; apply nth_error_Some; congruence).
    exact (forall2_nth _ _ _ F2 i i t (SN i Him) Hi).
  Qed.

  Lemma compile_cltree_iff : (exists m, compile_cltree F K alpha parents n raw w = Ok m) <->
    (2 <= F)%nat /\ (2 <= K)%nat /\ 0 < alpha /\ (1 <= n)%nat /\ (forall i, (i < n)%nat -> 0 < w i) /\ Rabs (bsum n w - 1) <= / 10 ^ 6.
  Proof.
    split.
    - intros (m & E). unfold compile_cltree in E. destruct (compile_trees _ _ _ _ _ _) as [ts|] eqn:ET; [|discriminate]. cbn [bind] in E.
      destruct (broadcast_weights n w F) as [wt|] eqn:EW; [|discriminate]. cbn [bind] in E. destruct (trees_inv _ _ ET) as [L TR].
      destruct ts as [|t ts]; [discriminate|]. destruct (mk_cltree_inv _ _ _ _ _ _ _ _ (TR 0%nat t eq_refl)) as (H1 & H2 & H3 & H4 & _).
      rewrite seq_length in H3. destruct (broadcast_inv _ _ _ _ EW). cbn in L. repeat split; auto. lia.
    - intros (F2 & K2 & A0 & N1 & WP & WS). unfold compile_cltree.
      destruct (mapr_forall2 (fun i => mk_cltree (seq 0 F) 1 1 K alpha parents
                   (fun f _ _ xi xp => Fin (decode_cpt F K (root_of parents) (raw i) f xi xp)))
        (fun _ _ => True) (seq 0 n)) as (ts & E & FF).
      { apply Forall_forall. intros i _. destruct (proj2 (mk_cltree_spec (seq 0 F) 1 1 K alpha parents (cpt_at i) root T)) as (t & E).
        { rewrite seq_length. auto. } exists t. split; [exact E|exact I]. }
      unfold compile_trees. rewrite E. cbn [bind]. rewrite broadcast_spec by assumption. cbn [bind].
      destruct ts as [|t ts]; [|eauto]. apply forall2_len in FF. rewrite seq_length in FF. cbn in FF. lia.
  Qed.

  Variable m : tree_mixture.
  Hypothesis HM : compile_cltree F K alpha parents n raw w = Ok m.
  Lemma m_parts : tm_F m = F /\ length (tm_trees m) = n /\ (forall i, tm_logits m i = ln (w i)) /\
    forall i t, nth_error (tm_trees m) i = Some t -> mk_cltree (seq 0 F) 1 1 K alpha parents (cpt_at i) = Ok t.
  Proof.
    unfold compile_cltree in HM. destruct (compile_trees _ _ _ _ _ _) as [ts|] eqn:ET; [|discriminate]. cbn [bind] in HM.
    destruct (broadcast_weights n w F) as [wt|] eqn:EW; [|discriminate]. cbn [bind] in HM. destruct (trees_inv _ _ ET) as [L TR].
    assert (forall f i o r, wv wt f i o r = w i) as EWV.
    { destruct (broadcast_inv _ _ _ _ EW) as [P S]. rewrite broadcast_spec in EW by assumption. injection EW as <-. reflexivity. }
    destruct ts as [|t ts]; [discriminate|]. injection HM as <-. cbn [tm_F tm_trees tm_logits]. repeat split; auto. intros i. now rewrite EWV.
  Qed.
  Lemma m_facts : (2 <= F)%nat /\ (2 <= K)%nat /\ 0 < alpha /\ (1 <= n)%nat /\ (forall i, (i < n)%nat -> 0 < w i) /\ Rabs (bsum n w - 1) <= / 10 ^ 6.
  Proof. apply compile_cltree_iff. eauto. Qed.

  Lemma joint_raises rows : (exists x, In x rows /\ ~ exists ob, observes F K x ob) -> joint_ll m rows = Err.
  Proof.
    destruct m_parts as (EF & L & LG & TR). destruct m_facts as (_ & _ & _ & N1 & _). intros X. unfold joint_ll.
    destruct (tm_trees m) as [|t ts] eqn:ET; [cbn in L; lia|]. cbn [mapr].
    rewrite (loglik_raises _ _ _ _ _ _ _ _ t (TR 0%nat t eq_refl) T) by (rewrite seq_length; exact X). reflexivity.
  Qed.

  Lemma mix_one (vs : list (nat -> nat -> nat -> lval)) f : length vs = n ->
    pr (mix_feature n (tm_logits m) vs f) = bsum n (fun i => w i / bsum n w * pr (nth i vs (fun _ _ _ => NInf) f 0%nat 0%nat)).
  Proof.
    intros LV. destruct m_parts as (EF & L & LG & TR). destruct m_facts as (_ & _ & _ & N1 & WP & _). unfold mix_feature.
    rewrite pr_lse. apply bsum_ext. intros i Hi. rewrite pr_ladd. cbn [pr]. rewrite Rmult_comm. f_equal.
    rewrite exp_log_softmax by lia. rewrite LG, exp_ln by auto. f_equal. apply bsum_ext. intros j Hj. now rewrite LG, exp_ln by auto.
  Qed.

  Lemma joint_spec rows obsv : Forall2 (observes F K) rows obsv ->
    exists lls, joint_ll m rows = Ok lls /\ length lls = length rows /\
      forall b x ob vs y, nth_error rows b = Some x -> nth_error obsv b = Some ob -> missing_of F ob vs ->
        (forall i v, (i < F)%nat -> ob i = Some v -> y i = v) -> exists ll, nth_error lls b = Some ll /\
          pr ll = tree_mix K root n parents raw (fun i => w i / bsum n w) vs y.
  Proof.
    intros OB. destruct m_parts as (EF & L & LG & TR). destruct m_facts as (F2 & K2 & A0 & N1 & WP & WS).
    assert (SP : 0 < bsum n w) by exact (close_pos _ WS).
    unfold joint_ll. set (ts := tm_trees m) in *.
    destruct (mapr_forall2 (fun t => clt_loglik t rows) (fun t lls => clt_loglik t rows = Ok lls) ts) as (vss & EV & FV).
    { apply Forall_forall. intros t Ht. destruct (In_nth_error _ _ Ht) as (i & Hi). pose proof (TR i t Hi) as MK.
      destruct (loglik_spec _ _ _ _ _ _ _ _ _ MK T rows obsv) as (lls & E & _); [rewrite seq_length; exact OB|]. eauto. }
    rewrite EV. cbn [bind]. eexists. split; [reflexivity|]. split; [now rewrite map_length, seq_length|].
    intros b x ob vs y Hx Hob HV Hy. assert (b < length rows)%nat as Hb by (apply nth_error_Some; congruence).
    eexists. split; [exact (map_nth_error _ _ _ (seq_nth_error _ _ Hb))|]. cbv beta.
    set (sel := map (fun vs0 : list (nat -> nat -> nat -> lval) => nth b vs0 (fun _ _ _ => NInf)) vss).
    assert (LS : length sel = n) by (unfold sel; rewrite map_length, (forall2_len _ _ _ FV); exact L).
    assert (VAL : forall i, (i < n)%nat -> (forall f, f <> 0%nat -> nth i sel (fun _ _ _ => NInf) f 0%nat 0%nat = Fin 0) /\
      pr (nth i sel (fun _ _ _ => NInf) 0%nat 0%nat 0%nat) = fsum K vs (tree_prob parents (table K root (raw i))) y).
    { intros i Hi. destruct (nth_error ts i) as [t|] eqn:Ht; [|apply nth_error_None in Ht; lia].
      destruct (nth_error vss i) as [lls|] eqn:Hv; [|apply nth_error_None in Hv; rewrite (forall2_len _ _ _ FV) in Hv; lia].
      pose proof (forall2_nth _ _ _ FV _ _ _ Ht Hv) as El. pose proof (TR i t Ht) as MK.
      destruct (loglik_spec _ _ _ _ _ _ _ _ _ MK T rows obsv) as (lls' & E' & _ & SP'); [rewrite seq_length; exact OB|]. rewrite El in E'. injection E' as <-.
      destruct (SP' b x ob Hx Hob) as (ll & Hll & V). destruct (V 0%nat 0%nat) as [V0 V1].
      assert (nth i sel (fun _ _ _ => NInf) = ll) as ->.
      { apply nth_error_nth. unfold sel. rewrite (map_nth_error _ _ _ Hv). f_equal. now apply nth_error_nth. }
      split; [exact V0|]. rewrite (V1 vs y) by (rewrite ?seq_length; assumption).
      apply fsum_ext. intros z. unfold tree_prob. apply bprod_ext. intros j Hj. unfold cpt_at. cbn [pr]. rewrite (root_of_tree _ _ T).
      destruct (Z.eqb _ _); apply decode_table; lia. }
    rewrite EF, L. rewrite pr_ladds.
    rewrite (bprod_ext F _ (fun f => if Nat.eqb f 0 then tree_mix K root n parents raw (fun i => w i / bsum n w) vs y else 1)).
    - rewrite bprod_split by lia. rewrite (bprod_ext F _ (fun _ => 1)) by (intros i _; now destruct (Nat.eqb i 0)). 
      rewrite bprod_one. ring.
    - intros f Hf. rewrite mix_one by exact LS. destruct (Nat.eqb_spec f 0) as [->|NF].
      + unfold tree_mix. apply bsum_ext. intros i Hi. f_equal. now apply VAL.
      + rewrite (bsum_ext n _ (fun i => / bsum n w * w i)).
        * rewrite bsum_scal. field. lra.
        * intros i Hi. rewrite (proj1 (VAL i Hi)) by exact NF. cbn [pr]. rewrite exp_0. unfold Rdiv. ring.
  Qed.

  (** a complete row: the compiled mixture scores it as training did *)
  Lemma joint_is_trained rows (xs : list (nat -> nat)) : weights_ok n w ->
    Forall2 (fun r x => forall f, (f < F)%nat -> (x f < K)%nat /\ r f = Some (INR (x f))) rows xs ->
    joint_ll m rows = Ok (map (fun x => mixture_ll n w (fun i => tree_ll F K root parents (decode_cpt F K root (raw i)) x)) xs).
  Proof.
    intros W FX. destruct m_facts as (F2 & K2 & _ & N1 & WP & _).
    destruct (joint_spec rows (map (fun (x : nat -> nat) f => Some (x f)) xs)) as (lls & E & LL & V).
    { clear - FX. induction FX as [|r x rs xs H _ IH]; constructor; [|exact IH]. intros i Hi. now apply H. }
    rewrite E. f_equal. apply nth_error_ext_list. 
    - rewrite map_length, LL. symmetry. exact (forall2_len _ _ _ FX).
    - intros b ll x' Hll Hx'. 
      destruct (nth_error xs b) as [x|] eqn:Hx; [|rewrite nth_error_map, Hx in Hx'; discriminate].
      rewrite (map_nth_error _ _ _ Hx) in Hx'. injection Hx' as <-.
      destruct (nth_error rows b) as [r|] eqn:Hr; [|exfalso; apply nth_error_None in Hr; assert (length lls <= b)%nat as Hl by (rewrite LL; exact Hr); apply nth_error_None in Hl; congruence].
      destruct (V b r _ [] x Hr (map_nth_error _ _ _ Hx)) as (ll' & Hll' & P).
      { split; [constructor|]. intros v. split; [intros []|intros [_ ?]; discriminate]. }
      { intros i v _ Hv. now injection Hv. }
      rewrite Hll in Hll'. injection Hll' as <-. apply pr_inj. rewrite P. unfold tree_mix, mixture_ll. rewrite pr_lse. cbn [fsum].
      destruct W as [W0 W1]. apply bsum_ext. intros i Hi. rewrite W1. cbn [pr]. rewrite exp_plus, Rmax_left by now apply W0. rewrite exp_ln by auto.
      rewrite (tree_ll_prob F K parents root (raw i) x T HF) by (intros f Hf; apply (forall2_nth _ _ _ FX _ _ _ Hr Hx f Hf)). unfold Rdiv. rewrite Rinv_1. ring.
  Qed.

  (** normalisation *)
  Lemma table_normalised i : normalised_tables F K parents (table K root (raw i)).
  Proof.
    destruct m_facts as (_ & K2 & _). intros f xp Hf Hxp R0. unfold table. 
    assert (forall g : nat -> R, bsum K (fun k => exp (g k) / bsum K (fun j => exp (g j))) = 1) as N.
    { intros g. rewrite (bsum_ext K _ (fun k => / bsum K (fun j => exp (g j)) * exp (g k))) by (intros; unfold Rdiv; ring).
      rewrite bsum_scal. apply Rinv_l. apply Rgt_not_eq. destruct K as [|K']; [lia|]. cbn [bsum].
      assert (0 <= bsum K' (fun j => exp (g j))) by (apply bsum_nonneg; intros; apply Rlt_le, exp_pos). pose proof (exp_pos (g K')). lra. }
    destruct (Nat.eqb f root); [exact (N (raw i))|exact (N (fun k => raw i (K + ((f * K + k) * K + xp))%nat))].
  Qed.
  Lemma mix_total vs y : missing_of F (fun _ => None) vs -> tree_mix K root n parents raw (fun i => w i / bsum n w) vs y = 1.
  Proof.
    intros HV. destruct m_parts as (EF & L & LG & TR). destruct m_facts as (F2 & K2 & A0 & N1 & WP & WS). unfold tree_mix.
    assert (SP : 0 < bsum n w) by exact (close_pos _ WS).
    rewrite (bsum_ext n _ (fun i => / bsum n w * w i)).
    - rewrite bsum_scal. field. lra.
    - intros i Hi. destruct (nth_error (tm_trees m) i) as [t|] eqn:Ht; [|apply nth_error_None in Ht; lia].
      assert (fsum K vs (tree_prob parents (table K root (raw i))) y = 1) as ->; [|unfold Rdiv; ring].
      transitivity (fsum K vs (tree_prob parents (fun f a p => pr (cpt_at i f 0%nat 0%nat a p))) y).
      + apply fsum_ext. intros z. unfold tree_prob. apply bprod_ext. intros j Hj. unfold cpt_at. cbn [pr]. rewrite (root_of_tree _ _ T).
        symmetry. destruct (Z.eqb _ _); apply decode_table; lia.
      + apply (total_normalised _ _ _ _ _ _ _ _ _ (TR i t Ht) T); [|rewrite seq_length; exact HV]. rewrite seq_length.
        intros f xp Hf Hxp R0. rewrite <- (table_normalised i f xp Hf Hxp R0). apply bsum_ext. intros k Hk. unfold cpt_at. cbn [pr]. rewrite (root_of_tree _ _ T).
        apply decode_table. lia.
  Qed.

  (** marginalisation *)
  Lemma gone_true marg v : existsb (Nat.eqb v) marg = true <-> In v marg.
  Proof.
    rewrite existsb_exists. split; [intros (g & Hg & E); apply Nat.eqb_eq in E; congruence|]. intros H. exists v. split; [exact H|apply Nat.eqb_refl].
  Qed.
  Lemma joint_marg_all marg : (forall f, (f < F)%nat -> In f marg) -> joint_marginalize m marg = Ok None.
  Proof.
    intros A. destruct m_parts as (EF & _). unfold joint_marginalize. rewrite EF.
    assert (forallb (fun q => existsb (Nat.eqb q) marg) (seq 0 F) = true) as ->; [|reflexivity].
    apply forallb_forall. intros q Hq. apply in_seq in Hq. apply gone_true, A. lia.
  Qed.
  Lemma joint_marg_some marg f f' : (f < F)%nat -> ~ In f marg -> (f' < F)%nat -> In f' marg -> joint_marginalize m marg = Err.
  Proof.
    intros Hf N Hf' I'. destruct m_parts as (EF & L & LG & TR). destruct m_facts as (_ & _ & _ & N1 & _). unfold joint_marginalize. rewrite EF.
    assert (NA : forallb (fun q => existsb (Nat.eqb q) marg) (seq 0 F) = false).
    { destruct (forallb _ _) eqn:E; [|reflexivity]. exfalso. rewrite forallb_forall in E. specialize (E f ltac:(apply in_seq; lia)). now apply gone_true in E. }
    rewrite NA. assert (existsb (fun q => existsb (Nat.eqb q) marg) (seq 0 F) = true) as ->.
    { apply existsb_exists. exists f'. split; [apply in_seq; lia|now apply gone_true]. }
    destruct (tm_trees m) as [|t ts] eqn:ET; [cbn in L; lia|]. rewrite (mapr_err _ _ t); [reflexivity|now left|].
    destruct (mk_cltree_inv _ _ _ _ _ _ _ _ (TR 0%nat t eq_refl)) as (_ & _ & _ & _ & pre & _ & ->). unfold clt_marginalize. cbn [t_query]. now rewrite NA.
  Qed.
  Lemma joint_marg_none marg : (forall f, (f < F)%nat -> ~ In f marg) ->
    exists m', joint_marginalize m marg = Ok (Some m') /\ forall rows, joint_ll m' rows = joint_ll m rows.
  Proof.
    intros A. destruct m_parts as (EF & L & LG & TR). destruct m_facts as (F2 & _ & _ & N1 & WP & _). unfold joint_marginalize. rewrite EF.
    assert (forallb (fun q => existsb (Nat.eqb q) marg) (seq 0 F) = false) as ->.
    { destruct (forallb _ _) eqn:E; [|reflexivity]. exfalso. rewrite forallb_forall in E. specialize (E 0%nat ltac:(apply in_seq; lia)). apply gone_true in E. apply (A 0%nat); [lia|exact E]. }
    assert (existsb (fun q => existsb (Nat.eqb q) marg) (seq 0 F) = false) as ->.
    { destruct (existsb _ _) eqn:E; [|reflexivity]. exfalso. apply existsb_exists in E. destruct E as (q & Hq & E). apply in_seq in Hq. apply gone_true in E. apply (A q); [lia|exact E]. }
    eexists. split; [reflexivity|]. intros rows. unfold joint_ll. cbn [tm_trees tm_F tm_logits]. rewrite EF.
    destruct (mapr _ _) as [vss|]; cbn [bind]; [|reflexivity]. f_equal. apply map_ext. intros b.
    assert (LS : forall i, (i < length (tm_trees m))%nat ->
      log_softmax (length (tm_trees m)) (fun j => ln (softmax (length (tm_trees m)) (tm_logits m) j)) i = log_softmax (length (tm_trees m)) (tm_logits m) i).
    { rewrite L. intros i Hi. assert (0 < bsum n (fun j => exp (tm_logits m j))) as SP.
      { destruct n as [|k]; [lia|]. cbn [bsum]. assert (0 <= bsum k (fun j => exp (tm_logits m j))) by (apply bsum_nonneg; intros; apply Rlt_le, exp_pos). pose proof (exp_pos (tm_logits m k)). lra. }
      assert (SM : forall j, exp (ln (softmax n (tm_logits m) j)) = exp (tm_logits m j) * / bsum n (fun j => exp (tm_logits m j))).
      { intros j. unfold softmax. apply exp_ln. apply Rmult_lt_0_compat; [apply exp_pos|now apply Rinv_0_lt_compat]. }
      apply exp_inv. rewrite !exp_log_softmax by lia. rewrite (bsum_ext n (fun j => exp (ln (softmax n (tm_logits m) j))) (fun j => / bsum n (fun k => exp (tm_logits m k)) * exp (tm_logits m j))) by (intros; rewrite SM; ring). rewrite SM.
      rewrite bsum_scal. field. lra. }
    set (ss := map _ vss). assert (EX : forall f, mix_feature (length (tm_trees m)) (fun j => ln (softmax (length (tm_trees m)) (tm_logits m) j)) ss f = mix_feature (length (tm_trees m)) (tm_logits m) ss f).
    { intros f. unfold mix_feature. apply pr_inj. rewrite !pr_lse. apply bsum_ext. intros i Hi. now rewrite LS. }
    apply pr_inj. rewrite !pr_ladds. apply bprod_ext. intros f _. now rewrite EX.
  Qed.
End Trees.
