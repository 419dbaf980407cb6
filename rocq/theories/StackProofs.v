(** Proofs about StackModel.v: one layer at a time. *)
From Coq Require Import List Arith Bool Reals Lia Lra.
From Verif Require Import Base ScopeModel CircuitModel CircuitSpec CircuitEval Integral CircuitMarg CircuitProps
  SampleModel EmModel SplitModel SplitProofs LayerModel LayerSpec LayerProofs FactorModel StackModel.
Import ListNotations.
Local Open Scope R_scope.

(** a tensor without NaN or -inf that holds the probabilities [P] *)
Definition holds (t : nt) (s : shape) (P : nat -> nat -> nat -> R) : Prop :=
  t_sh (n_t t) = s /\
  forall f c r, in_shape s f c r -> n_nan t f c r = false /\ 0 < P f c r /\ t_ll (n_t t) f c r = lfrom (P f c r).

(** the probabilities a layer computes *)
Definition sem (o : op) (s : shape) (P : nat -> nat -> nat -> R) (f c r : nat) : R :=
  let C := channels s in
  match o with
  | OProd false k n => P (in_feature k (features s / 2) 2 f 0) c r * P (in_feature k (features s / 2) 2 f 1) c r
  | OProd true k n => P (in_feature k (features s / 2) 2 f 0) (c / C)%nat r * P (in_feature k (features s / 2) 2 f 1) (c mod C)%nat r
  | OSum co nr lg => bsum C (fun i => softmax C (fun j => lg f j c r) i * P f i r)
  | OMix co nr lg => bsum nr (fun q => softmax nr (lg f c) q * P f c q)
  | OLin co nr lg => bsum C (fun i => softmax C (lg f c r) i * (P (2 * f)%nat i r * P (2 * f + 1)%nat i r))
  | OEin _ co nr lg => bsum C (fun i => bsum C (fun j => pair_weight C C lg f c r i j * (P (2 * f)%nat i r * P (2 * f + 1)%nat j r)))
  | OAll => bprod (features s) (fun g => P g c r)
  end.
(** the shape of the result *)
Definition semsh (o : op) (s : shape) : shape :=
  let F := features s in let C := channels s in let Rr := repetitions s in
  match o with
  | OProd false k n => mkShape (F / 2) C Rr
  | OProd true k n => mkShape (F / 2) (C * C) Rr
  | OSum co nr _ => mkShape F co Rr
  | OMix co nr _ => mkShape F co 1
  | OLin co nr _ | OEin _ co nr _ => mkShape (F / 2) co Rr
  | OAll => mkShape 1 C Rr
  end.
(** when a layer fits its input *)
Definition fits (o : op) (s : shape) (out : shape) : Prop :=
  let F := features s in let C := channels s in let Rr := repetitions s in
  (0 < C)%nat /\ (0 < Rr)%nat /\
  match o with
  | OProd outer k n => n = 2%nat /\ k <> ByIndex /\ (exists w, (0 < w)%nat /\ F = (w * 2)%nat) /\ out = semsh o s
  | OSum co nr _ => Rr = nr
  | OMix co nr _ => Rr = nr /\ co = C
  | OLin co nr _ | OEin _ co nr _ => Rr = nr /\ exists w, (0 < w)%nat /\ F = (w * 2)%nat
  | OAll => True
  end.

Lemma nth_map_seq {A} (g : nat -> A) n i d : (i < n)%nat -> nth i (map g (seq 0 n)) d = g i.
Proof.
  intros H. rewrite (nth_indep _ d (g 0%nat)) by (rewrite map_length, seq_length; exact H).
  rewrite map_nth, seq_nth by exact H. reflexivity.
Qed.
Lemma split2 k w : k <> ByIndex -> (0 < w)%nat ->
  split_idx k 2 (w * 2) = Ok [map (fun f => in_feature k w 2 f 0) (seq 0 w); map (fun f => in_feature k w 2 f 1) (seq 0 w)].
Proof.
  intros Hk Hw. destruct k; [| |contradiction]; unfold split_idx.
  - rewrite (split_consecutive_div 2 w); [|lia|lia|rewrite seq_length; lia]. cbn [seq map]. f_equal.
    assert (K : forall i, (i < 2)%nat -> firstn w (skipn (i * w) (seq 0 (w * 2))) = map (fun f => in_feature Consecutive w 2 f i) (seq 0 w)).
    { intros i Hi. apply (nth_ext _ _ 0%nat 0%nat).
      - rewrite firstn_length, skipn_length, map_length, !seq_length. nia.
      - intros f Hf. rewrite firstn_length, skipn_length, seq_length in Hf. assert (f < w)%nat by lia.
        rewrite nth_map_seq by assumption. cbn [in_feature].
        rewrite <- (firstn_skipn w (skipn (i * w) (seq 0 (w * 2)))) in *.
        transitivity (nth f (skipn (i * w) (seq 0 (w * 2))) 0%nat).
        + rewrite firstn_skipn. rewrite <- (firstn_skipn w (skipn (i * w) (seq 0 (w * 2)))) at 2.
          rewrite app_nth1; [reflexivity|]. rewrite firstn_length, skipn_length, seq_length. nia.
        + assert (G : forall (l : list nat) a b, nth b (skipn a l) 0%nat = nth (a + b) l 0%nat).
          { induction l as [|y l IHl]; intros [|a] b; cbn; try reflexivity; [destruct b; reflexivity|apply IHl]. }
          rewrite G, seq_nth by nia. reflexivity. }
    pose proof (K 0%nat ltac:(lia)) as K0. pose proof (K 1%nat ltac:(lia)) as K1.
    rewrite K0, K1. reflexivity.
  - unfold split_interleaved. cbn [seq map]. f_equal.
    rewrite !(strided_spec 2 _ 0%nat w) by (rewrite ?seq_length; lia).
    f_equal; [|f_equal]; apply map_ext_in; intros f Hf; apply in_seq in Hf; rewrite seq_nth by lia; cbn [in_feature]; lia.
Qed.

Lemma lfrom_Fin p : 0 < p -> lfrom p = Fin (ln p).
Proof. intros H. apply pr_inj. rewrite pr_lfrom by lra. cbn [pr]. now rewrite exp_ln. Qed.
Lemma anyb_false n p : (forall i, (i < n)%nat -> p i = false) -> anyb n p = false.
Proof.
  intros H. unfold anyb. apply not_true_is_false. intros E. apply existsb_exists in E. destruct E as (i & Hi & E).
  apply in_seq in Hi. rewrite H in E by lia. discriminate.
Qed.
Lemma anyb_true n p i : (i < n)%nat -> p i = true -> anyb n p = true.
Proof. intros Hi E. unfold anyb. apply existsb_exists. exists i. split; [apply in_seq; lia|exact E]. Qed.
Lemma holds_pr t s P f c r : holds t s P -> in_shape s f c r -> pr (t_ll (n_t t) f c r) = P f c r.
Proof. intros (_ & H) I. destruct (H f c r I) as (_ & Hp & ->). apply pr_lfrom. lra. Qed.
Lemma holds_nan t s P f c r : holds t s P -> in_shape s f c r -> n_nan t f c r = false.
Proof. intros (_ & H) I. apply (H f c r I). Qed.
Lemma holds_pos t s P f c r : holds t s P -> in_shape s f c r -> 0 < P f c r.
Proof. intros (_ & H) I. apply (H f c r I). Qed.
Lemma bsum_softmax_pos n lg p : (0 < n)%nat -> (forall i, (i < n)%nat -> 0 < p i) -> 0 < bsum n (fun i => softmax n lg i * p i).
Proof.
  intros Hn H. apply bsum_pos; [exact Hn|]. intros i Hi. apply Rmult_lt_0_compat; [now apply softmax_pos|now apply H].
Qed.
Lemma pr_eq_lfrom l p : 0 < p -> pr l = p -> l = lfrom p.
Proof. intros H E. apply pr_inj. rewrite E, pr_lfrom; lra. Qed.

Lemma in_feature_lt k w f i : (f < w)%nat -> (i < 2)%nat -> (in_feature k w 2 f i < w * 2)%nat.
Proof. intros. destruct k; cbn [in_feature]; nia. Qed.
Lemma in_feature_inj k w f i g j : (f < w)%nat -> (i < 2)%nat -> (g < w)%nat -> (j < 2)%nat ->
  in_feature k w 2 f i = in_feature k w 2 g j -> f = g /\ i = j.
Proof. intros. destruct k; cbn [in_feature] in *; assert (i = 0 \/ i = 1)%nat as [-> | ->] by lia; assert (j = 0 \/ j = 1)%nat as [-> | ->] by lia; lia. Qed.
Lemma in_feature_sur k w g : (g < w * 2)%nat -> exists f i, (f < w)%nat /\ (i < 2)%nat /\ g = in_feature k w 2 f i.
Proof.
  intros H. destruct k; cbn [in_feature].
  - exists (g mod w)%nat, (g / w)%nat. assert (w <> 0)%nat by lia. split; [now apply Nat.mod_upper_bound|].
    split; [apply Nat.div_lt_upper_bound; lia|]. rewrite (Nat.div_mod g w) at 1 by assumption. lia.
  - exists (g / 2)%nat, (g mod 2)%nat. split; [apply Nat.div_lt_upper_bound; lia|].
    split; [now apply Nat.mod_upper_bound|]. rewrite (Nat.div_mod g 2) at 1 by lia. lia.
  - exists (g / 2)%nat, (g mod 2)%nat. split; [apply Nat.div_lt_upper_bound; lia|].
    split; [now apply Nat.mod_upper_bound|]. rewrite (Nat.div_mod g 2) at 1 by lia. lia.
Qed.

(** itertools.product of two ranges *)
Lemma iproduct2 a b c : (c < a * b)%nat -> nth c (iproduct [a; b]) [] = [(c / b)%nat; (c mod b)%nat].
Proof.
  intros H. assert (b <> 0)%nat by lia.
  assert (K : nth c (iproduct [a; b]) [] = (c / b)%nat :: nth (c mod b) (iproduct [b]) []).
  { pose proof (iproduct_digits a [b] c) as Q. cbn [nprod] in Q. rewrite Nat.mul_1_r in Q. specialize (Q H). exact Q. }
  rewrite K. f_equal. pose proof (iproduct_digits b [] (c mod b)) as Q. cbn [nprod] in Q.
  rewrite Q by (pose proof (Nat.mod_upper_bound c b); lia). rewrite Nat.div_1_r. f_equal.
Qed.

Lemma run_ok l t s P : holds t s P -> features (l_in l) = features s -> channels (l_in l) = channels s ->
  fits (l_op l) s (l_out l) -> exists t', run l t = Ok t' /\ holds t' (semsh (l_op l) s) (sem (l_op l) s P).
Proof.
  intros Ht EF EC HF. pose proof Ht as (Es & Hv). unfold run. cbv zeta. rewrite Es, EF, EC, !Nat.eqb_refl. cbn [andb negb].
  destruct l as [o si so]. cbn [l_op l_in l_out] in *. destruct HF as (HC & HR & HF).
  destruct o as [outer k n|co nr lg|co nr lg|co nr lg|sc co nr lg|].
  - destruct HF as (-> & Hk & (w & Hw & EW) & Eo). rewrite EW, (split2 k w Hk Hw). cbn [bind map].
    set (ia := map (fun f => in_feature k w 2 f 0) (seq 0 w)). set (ib := map (fun f => in_feature k w 2 f 1) (seq 0 w)).
    assert (La : length ia = w) by (unfold ia; now rewrite map_length, seq_length).
    assert (Lb : length ib = w) by (unfold ib; now rewrite map_length, seq_length).
    assert (Na : forall f, (f < w)%nat -> nth f ia 0%nat = in_feature k w 2 f 0) by (intros; unfold ia; now rewrite nth_map_seq).
    assert (Nb : forall f, (f < w)%nat -> nth f ib 0%nat = in_feature k w 2 f 1) by (intros; unfold ib; now rewrite nth_map_seq).
    assert (Dw : (features s / 2 = w)%nat) by (rewrite EW; apply Nat.div_mul; lia).
    assert (IN : forall f i c r, (f < w)%nat -> (i < 2)%nat -> (c < channels s)%nat -> (r < repetitions s)%nat ->
       in_shape s (in_feature k w 2 f i) c r).
    { intros f i c r A B D E. split; [|split; assumption]. rewrite EW. now apply in_feature_lt. }
    destruct outer.
    + assert (Esh : outer_shape [n_t (take t ia); n_t (take t ib)] = Ok (semsh (OProd true k 2) s)).
      { unfold outer_shape, take, t_ft, t_ch. cbn [n_t t_sh forallb map features channels repetitions]. rewrite La, Lb, Es, !Nat.eqb_refl. cbn [andb orb].
        unfold outer_channels. rewrite iproduct_length. cbn [nprod map]. unfold t_ch. cbn [n_t t_sh channels semsh].
        rewrite ?Es, Dw. do 2 f_equal. lia. }
      rewrite Esh. cbn [bind]. rewrite <- Eo. unfold shape_eqb. rewrite !Nat.eqb_refl. cbn [andb negb].
      eexists. split; [reflexivity|]. rewrite Eo. split; [reflexivity|]. cbn [n_t t_sh t_ll n_nan semsh].
      intros f c r (If & Ic & Ir). cbn [features channels repetitions semsh] in If, Ic, Ir. rewrite Dw in If. cbn [sem]. rewrite Dw.
      set (C := channels s) in *.
      assert (A1 : (c / C < C)%nat) by (apply Nat.div_lt_upper_bound; lia). assert (A2 : (c mod C < C)%nat) by (apply Nat.mod_upper_bound; lia).
      assert (P1 := holds_pos _ _ _ _ _ _ Ht (IN f 0%nat (c / C)%nat r If ltac:(lia) A1 Ir)).
      assert (P2 := holds_pos _ _ _ _ _ _ Ht (IN f 1%nat (c mod C)%nat r If ltac:(lia) A2 Ir)).
      assert (EcC : forall ix, t_ch (n_t (take t ix)) = C) by (intros ix; unfold take, t_ch; cbn [n_t t_sh channels]; now rewrite Es).
      split; [|split].
      * apply anyb_false. intros i Hi. cbn [length] in Hi.
        cbn [map]. rewrite !EcC, iproduct2 by exact Ic.
        assert (i = 0 \/ i = 1)%nat as [-> | ->] by lia; cbn [nth take n_nan].
        -- rewrite Na by exact If. exact (holds_nan _ _ _ _ _ _ Ht (IN f 0%nat _ r If ltac:(lia) A1 Ir)).
        -- rewrite Nb by exact If. exact (holds_nan _ _ _ _ _ _ Ht (IN f 1%nat _ r If ltac:(lia) A2 Ir)).
      * now apply Rmult_lt_0_compat.
      * apply pr_eq_lfrom; [now apply Rmult_lt_0_compat|].
        rewrite (c21_ll [n_t (take t ia); n_t (take t ib)] _ f c r [(c / C)%nat; (c mod C)%nat] (ltac:(repeat constructor; rewrite EcC; exact HC)) Esh).
        2:{ unfold outer_map. cbn [map]. rewrite !EcC. rewrite (nth_error_nth' _ []) by (rewrite iproduct_length; cbn; lia). now rewrite iproduct2 by exact Ic. }
        rewrite pr_ladds. cbn [length bprod nth]. rewrite Rmult_1_l.
        assert (Ft : forall ix, length ix = w -> bidx (t_ft (n_t (take t ix))) f = f).
        { intros ix Hx. unfold take, t_ft, bidx. cbn [n_t t_sh features]. rewrite Hx. destruct (Nat.eqb_spec w 1); [lia|reflexivity]. }
        rewrite !Ft by assumption. unfold take. cbn [n_t t_ll]. rewrite Na, Nb by exact If.
        now rewrite !(holds_pr _ _ _ _ _ _ Ht) by (apply IN; lia || assumption).
    + assert (Esh : ew_shape [n_t (take t ia); n_t (take t ib)] = Ok (semsh (OProd false k 2) s)).
      { unfold ew_shape, ew_accepts, ew_channels, take, t_ft, t_ch. cbn [n_t t_sh forallb map features channels repetitions].
        rewrite La, Lb, Es. unfold t_ch. cbn [t_sh channels]. cbn [list_max fold_right]. rewrite Nat.max_0_r, Nat.max_id, !Nat.eqb_refl. cbn [andb orb].
        rewrite orb_true_r. cbn [andb semsh]. now rewrite Dw. }
      rewrite Esh. cbn [bind]. rewrite <- Eo. unfold shape_eqb. rewrite !Nat.eqb_refl. cbn [andb negb].
      eexists. split; [reflexivity|]. rewrite Eo. split; [reflexivity|]. cbn [n_t t_sh t_ll n_nan semsh].
      intros f c r (If & Ic & Ir). cbn [features channels repetitions semsh] in If, Ic, Ir. rewrite Dw in If. cbn [sem]. rewrite Dw.
      set (C := channels s) in *.
      assert (P1 := holds_pos _ _ _ _ _ _ Ht (IN f 0%nat c r If ltac:(lia) Ic Ir)).
      assert (P2 := holds_pos _ _ _ _ _ _ Ht (IN f 1%nat c r If ltac:(lia) Ic Ir)).
      assert (Bc : bidx C c = c) by (unfold bidx; destruct (Nat.eqb_spec C 1); [lia|reflexivity]).
      split; [|split].
      * apply anyb_false. intros i Hi. cbn [length] in Hi. rewrite Bc.
        assert (i = 0 \/ i = 1)%nat as [-> | ->] by lia; cbn [nth take n_nan].
        -- rewrite Na by exact If. exact (holds_nan _ _ _ _ _ _ Ht (IN f 0%nat _ r If ltac:(lia) Ic Ir)).
        -- rewrite Nb by exact If. exact (holds_nan _ _ _ _ _ _ Ht (IN f 1%nat _ r If ltac:(lia) Ic Ir)).
      * now apply Rmult_lt_0_compat.
      * apply pr_eq_lfrom; [now apply Rmult_lt_0_compat|].
        unfold ew_ll. rewrite pr_ladds. cbn [length bprod nth]. rewrite Rmult_1_l. cbv zeta.
        unfold take, t_ch. cbn [n_t t_ll t_sh channels]. rewrite Es. fold C. rewrite Bc. rewrite Na, Nb by exact If.
        now rewrite !(holds_pr _ _ _ _ _ _ Ht) by (apply IN; lia || assumption).
  - subst nr. set (Rr := repetitions s) in *. set (C := channels s) in *.
    unfold bcast. rewrite Nat.eqb_refl. cbn [bind]. eexists. split; [reflexivity|].
    split; [reflexivity|]. cbn [n_t t_sh t_ll n_nan semsh sem]. fold C.
    intros f o r (If & Io & Ir). cbn [features channels repetitions] in If, Io, Ir. fold Rr in Ir.
    assert (Br : bidx Rr r = r) by (unfold bidx; destruct (Nat.eqb_spec Rr 1); [lia|reflexivity]). rewrite Br.
    assert (IN : forall c, (c < C)%nat -> in_shape s f c r) by (intros c Hc; repeat split; assumption).
    assert (Q : 0 < bsum C (fun i => softmax C (fun j => lg f j o r) i * P f i r)).
    { apply bsum_softmax_pos; [exact HC|]. intros i Hi. exact (holds_pos _ _ _ _ _ _ Ht (IN i Hi)). }
    split; [|split; [exact Q|]].
    + apply anyb_false. intros c Hc. exact (holds_nan _ _ _ _ _ _ Ht (IN c Hc)).
    + apply pr_eq_lfrom; [exact Q|]. rewrite pr_lse. apply bsum_ext. intros c Hc. rewrite pr_ladd. cbn [pr].
      rewrite exp_log_softmax by assumption. rewrite (holds_pr _ _ _ _ _ _ Ht (IN c Hc)). ring.
  - destruct HF as (<- & ->). set (Rr := repetitions s) in *. set (C := channels s) in *.
    rewrite Nat.eqb_refl. cbn [negb]. eexists. split; [reflexivity|].
    split; [reflexivity|]. cbn [n_t t_sh t_ll n_nan semsh sem].
    intros f c r (If & Ic & Ir). cbn [features channels repetitions] in If, Ic, Ir.
    assert (IN : forall q, (q < Rr)%nat -> in_shape s f c q) by (intros q Hq; repeat split; assumption).
    assert (Q : 0 < bsum Rr (fun q => softmax Rr (lg f c) q * P f c q)).
    { apply bsum_softmax_pos; [exact HR|]. intros i Hi. exact (holds_pos _ _ _ _ _ _ Ht (IN i Hi)). }
    split; [|split; [exact Q|]].
    + apply anyb_false. intros q Hq. exact (holds_nan _ _ _ _ _ _ Ht (IN q Hq)).
    + apply pr_eq_lfrom; [exact Q|]. rewrite c25_ll by exact HR. apply bsum_ext. intros q Hq.
      now rewrite (holds_pr _ _ _ _ _ _ Ht (IN q Hq)).
  - destruct HF as (<- & (w & Hw & EW)). set (Rr := repetitions s) in *. set (C := channels s) in *.
    rewrite Nat.eqb_refl. cbn [negb]. rewrite EW, (split2 Interleaved w ltac:(discriminate) Hw).
    eexists. split; [reflexivity|]. assert (Dw : (w * 2 / 2 = w)%nat) by (apply Nat.div_mul; lia).
    split; [cbn [semsh n_t t_sh]; now rewrite EW|]. cbn [n_t t_sh t_ll n_nan semsh sem]. fold C.
    intros f o r (If & Io & Ir). cbn [features channels repetitions] in If, Io, Ir. rewrite EW, Dw in If. fold Rr in Ir.
    assert (IN : forall i c, (i < 2)%nat -> (c < C)%nat -> in_shape s (in_feature Interleaved w 2 f i) c r).
    { intros i c Hi Hc. split; [|split; assumption]. rewrite EW. now apply in_feature_lt. }
    replace (2 * f)%nat with (in_feature Interleaved w 2 f 0) by (cbn [in_feature]; lia).
    replace (in_feature Interleaved w 2 f 0 + 1)%nat with (in_feature Interleaved w 2 f 1) by (cbn [in_feature]; lia).
    assert (Q : 0 < bsum C (fun i => softmax C (lg f o r) i * (P (in_feature Interleaved w 2 f 0) i r * P (in_feature Interleaved w 2 f 1) i r))).
    { apply bsum_softmax_pos; [exact HC|]. intros i Hi.
      apply Rmult_lt_0_compat; [exact (holds_pos _ _ _ _ _ _ Ht (IN 0%nat i ltac:(lia) Hi))|exact (holds_pos _ _ _ _ _ _ Ht (IN 1%nat i ltac:(lia) Hi))]. }
    split; [|split; [exact Q|]].
    + apply anyb_false. intros c Hc. unfold take. cbn [n_nan]. rewrite !nth_map_seq by exact If.
      now rewrite (holds_nan _ _ _ _ _ _ Ht (IN 0%nat c ltac:(lia) Hc)), (holds_nan _ _ _ _ _ _ Ht (IN 1%nat c ltac:(lia) Hc)).
    + apply pr_eq_lfrom; [exact Q|]. rewrite c24_linsum by exact HC. apply bsum_ext. intros c Hc. unfold take. cbn [n_t t_ll].
      rewrite !nth_map_seq by exact If.
      now rewrite (holds_pr _ _ _ _ _ _ Ht (IN 0%nat c ltac:(lia) Hc)), (holds_pr _ _ _ _ _ _ Ht (IN 1%nat c ltac:(lia) Hc)).
  - destruct HF as (<- & (w & Hw & EW)). set (Rr := repetitions s) in *. set (C := channels s) in *.
    rewrite Nat.eqb_refl. cbn [negb]. rewrite EW, (split2 Interleaved w ltac:(discriminate) Hw).
    eexists. split; [reflexivity|]. assert (Dw : (w * 2 / 2 = w)%nat) by (apply Nat.div_mul; lia).
    split; [cbn [semsh n_t t_sh]; now rewrite EW|]. cbn [n_t t_sh t_ll n_nan semsh sem]. fold C.
    intros f o r (If & Io & Ir). cbn [features channels repetitions] in If, Io, Ir. rewrite EW, Dw in If. fold Rr in Ir.
    assert (IN : forall i c, (i < 2)%nat -> (c < C)%nat -> in_shape s (in_feature Interleaved w 2 f i) c r).
    { intros i c Hi Hc. split; [|split; assumption]. rewrite EW. now apply in_feature_lt. }
    replace (2 * f)%nat with (in_feature Interleaved w 2 f 0) by (cbn [in_feature]; lia).
    replace (in_feature Interleaved w 2 f 0 + 1)%nat with (in_feature Interleaved w 2 f 1) by (cbn [in_feature]; lia).
    set (a := map (fun f0 => in_feature Interleaved w 2 f0 0) (seq 0 w)). set (b := map (fun f0 => in_feature Interleaved w 2 f0 1) (seq 0 w)).
    assert (Na : nth f a 0%nat = in_feature Interleaved w 2 f 0) by (unfold a; now rewrite nth_map_seq).
    assert (Nb : nth f b 0%nat = in_feature Interleaved w 2 f 1) by (unfold b; now rewrite nth_map_seq).
    assert (Q : 0 < bsum C (fun i => bsum C (fun j => pair_weight C C lg f o r i j * (P (in_feature Interleaved w 2 f 0) i r * P (in_feature Interleaved w 2 f 1) j r)))).
    { apply bsum_pos; [exact HC|]. intros i Hi. apply bsum_pos; [exact HC|]. intros j Hj. apply Rmult_lt_0_compat; [apply pair_weight_pos; nia|].
      apply Rmult_lt_0_compat; [exact (holds_pos _ _ _ _ _ _ Ht (IN 0%nat i ltac:(lia) Hi))|exact (holds_pos _ _ _ _ _ _ Ht (IN 1%nat j ltac:(lia) Hj))]. }
    assert (FN : forall i c, (i < 2)%nat -> (c < C)%nat -> t_ll (n_t t) (in_feature Interleaved w 2 f i) c r <> NInf).
    { intros i c Hi Hc. destruct (Hv _ _ _ (IN i c Hi Hc)) as (_ & Hp & ->). rewrite lfrom_Fin by exact Hp. discriminate. }
    assert (EV : einsum_ll sc C C lg (t_ll (n_t (take t a))) (t_ll (n_t (take t b))) f o r =
      of_lval (lfrom (bsum C (fun i => bsum C (fun j => pair_weight C C lg f o r i j * (P (in_feature Interleaved w 2 f 0) i r * P (in_feature Interleaved w 2 f 1) j r)))))).
    { rewrite c24_einsum.
      - unfold einsum_spec. do 2 f_equal. apply bsum_ext. intros i Hi. apply bsum_ext. intros j Hj. unfold take. cbn [n_t t_ll]. rewrite Na, Nb.
        now rewrite (holds_pr _ _ _ _ _ _ Ht (IN 0%nat i ltac:(lia) Hi)), (holds_pr _ _ _ _ _ _ Ht (IN 1%nat j ltac:(lia) Hj)).
      - exists 0%nat. split; [exact HC|]. unfold take. cbn [n_t t_ll]. rewrite Na. exact (FN 0%nat 0%nat ltac:(lia) HC).
      - exists 0%nat. split; [exact HC|]. unfold take. cbn [n_t t_ll]. rewrite Nb. exact (FN 1%nat 0%nat ltac:(lia) HC). }
    rewrite EV, (lfrom_Fin _ Q). cbn [of_lval to_lval is_nan].
    split; [|split; [exact Q|reflexivity]]. rewrite orb_false_r.
    apply anyb_false. intros c Hc. unfold take. cbn [n_nan]. rewrite Na, Nb.
    now rewrite (holds_nan _ _ _ _ _ _ Ht (IN 0%nat c ltac:(lia) Hc)), (holds_nan _ _ _ _ _ _ Ht (IN 1%nat c ltac:(lia) Hc)).
  - eexists. split; [reflexivity|]. split; [reflexivity|]. cbn [n_t t_sh t_ll n_nan semsh sem].
    intros f c r (If & Ic & Ir). cbn [features channels repetitions] in If, Ic, Ir.
    assert (IN : forall g, (g < features s)%nat -> in_shape s g c r) by (intros g Hg; repeat split; assumption).
    assert (Q : 0 < bprod (features s) (fun g => P g c r)) by (apply bprod_pos; intros g Hg; exact (holds_pos _ _ _ _ _ _ Ht (IN g Hg))).
    split; [|split; [exact Q|]].
    + apply anyb_false. intros g Hg. exact (holds_nan _ _ _ _ _ _ Ht (IN g Hg)).
    + apply pr_eq_lfrom; [exact Q|]. rewrite pr_ladds. apply bprod_ext. intros g Hg. exact (holds_pr _ _ _ _ _ _ Ht (IN g Hg)).
Qed.
