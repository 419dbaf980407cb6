(** NaN and failures in stacks of layers. *)
From Coq Require Import List Arith Bool Reals Lia Lra Permutation.
From Verif Require Import Base ScopeModel ScopeProofs CircuitModel CircuitSpec CircuitBasics CircuitEval Integral CircuitMarg CircuitProps
  SampleModel EmModel SplitModel SplitProofs LayerModel LayerSpec LayerProofs FactorModel FactorProofs FactorTop
  StackModel StackSpec StackProofs StackDist StackTop StackRat.
Import ListNotations.
Local Open Scope R_scope.

(** ** NaN reaches the root *)
Definition some_nan (t : nt) (s : shape) (r : nat) : Prop := exists f c, in_shape s f c r /\ n_nan t f c r = true.
Lemma in_feature_part k w g : (g < w * 2)%nat -> exists f i, (f < w)%nat /\ (i < 2)%nat /\ g = in_feature k w 2 f i.
Proof. apply in_feature_sur. Qed.

Lemma run_nan l t s r : t_sh (n_t t) = s -> features (l_in l) = features s -> channels (l_in l) = channels s ->
  fits (l_op l) s (l_out l) -> (forall co nr lg, l_op l <> OSum 0 nr lg /\ l_op l <> OLin 0 nr lg /\ forall sc pl, l_op l <> OEin sc 0 co pl) ->
  some_nan t s r ->
  exists t', run l t = Ok t' /\ t_sh (n_t t') = semsh (l_op l) s /\
    some_nan t' (semsh (l_op l) s) (match l_op l with OMix _ _ _ => 0%nat | _ => r end).
Proof.
  intros Es EF EC HF Hnz (f & c & (If & Ic & Ir) & Hn). unfold run. cbv zeta. rewrite Es, EF, EC, !Nat.eqb_refl. cbn [andb negb].
  destruct l as [o si so]. cbn [l_op l_in l_out] in *. destruct HF as (HC & HR & HF).
  destruct o as [outer k n|co nr lg|co nr lg|co nr lg|sc co nr lg|].
  - destruct HF as (-> & Hk & (w & Hw & EW) & Eo). rewrite EW, (split2 k w Hk Hw). cbn [bind map].
    set (ia := map (fun f => in_feature k w 2 f 0) (seq 0 w)). set (ib := map (fun f => in_feature k w 2 f 1) (seq 0 w)).
    assert (La : length ia = w) by (unfold ia; now rewrite map_length, seq_length).
    assert (Lb : length ib = w) by (unfold ib; now rewrite map_length, seq_length).
    assert (Na : forall f, (f < w)%nat -> nth f ia 0%nat = in_feature k w 2 f 0) by (intros; unfold ia; now rewrite nth_map_seq).
    assert (Nb : forall f, (f < w)%nat -> nth f ib 0%nat = in_feature k w 2 f 1) by (intros; unfold ib; now rewrite nth_map_seq).
    assert (Dw : (features s / 2 = w)%nat) by (rewrite EW; apply Nat.div_mul; lia).
    rewrite EW in If. destruct (in_feature_sur k w f If) as (g & i & Hg & Hi & Ef).
    destruct outer.
    + assert (Esh : outer_shape [n_t (take t ia); n_t (take t ib)] = Ok (semsh (OProd true k 2) s)).
      { unfold outer_shape, take, t_ft, t_ch. cbn [n_t t_sh forallb map features channels repetitions]. rewrite La, Lb, Es, !Nat.eqb_refl. cbn [andb orb].
        unfold outer_channels. rewrite iproduct_length. cbn [nprod map]. unfold t_ch. cbn [n_t t_sh channels semsh].
        rewrite ?Es, Dw. do 2 f_equal. lia. }
      rewrite Esh. cbn [bind]. rewrite <- Eo. unfold shape_eqb. rewrite !Nat.eqb_refl. cbn [andb negb].
      eexists. split; [reflexivity|]. rewrite Eo. split; [reflexivity|].
      set (C := channels s) in *.
      assert (EcC : forall ix, t_ch (n_t (take t ix)) = C) by (intros ix; unfold take, t_ch; cbn [n_t t_sh channels]; now rewrite Es).
      assert (M1 : (c * C < C * C)%nat) by nia. assert (M2 : (c < C * C)%nat) by nia.
      assert (i = 0 \/ i = 1)%nat as [-> | ->] by lia.
      * exists g, (c * C)%nat. cbn [semsh]. fold C. split; [cbn [in_shape features channels repetitions]; split; [cbn [features]; rewrite Dw; exact Hg|split; [exact M1|exact Ir]]|].
        cbn [n_nan length]. apply (anyb_true 2 _ 0%nat ltac:(lia)). cbn [map]. rewrite !EcC, iproduct2 by assumption.
        cbn [nth take n_nan]. rewrite Na by exact Hg. assert (C <> 0)%nat by (clear -HC; lia). rewrite <- Ef, Nat.div_mul by assumption. exact Hn.
      * exists g, c. cbn [semsh]. fold C. split; [cbn [in_shape features channels repetitions]; split; [cbn [features]; rewrite Dw; exact Hg|split; [exact M2|exact Ir]]|].
        cbn [n_nan length]. apply (anyb_true 2 _ 1%nat ltac:(lia)). cbn [map]. rewrite !EcC, iproduct2 by assumption.
        cbn [nth take n_nan]. rewrite Nb by exact Hg. rewrite <- Ef, Nat.mod_small by exact Ic. exact Hn.
    + assert (Esh : ew_shape [n_t (take t ia); n_t (take t ib)] = Ok (semsh (OProd false k 2) s)).
      { unfold ew_shape, ew_accepts, ew_channels, take, t_ft, t_ch. cbn [n_t t_sh forallb map features channels repetitions].
        rewrite La, Lb, Es. unfold t_ch. cbn [t_sh channels]. cbn [list_max fold_right]. rewrite Nat.max_0_r, Nat.max_id, !Nat.eqb_refl. cbn [andb orb].
        rewrite orb_true_r. cbn [andb semsh]. now rewrite Dw. }
      rewrite Esh. cbn [bind]. rewrite <- Eo. unfold shape_eqb. rewrite !Nat.eqb_refl. cbn [andb negb].
      eexists. split; [reflexivity|]. rewrite Eo. split; [reflexivity|].
      assert (Bc : bidx (channels s) c = c) by (unfold bidx; destruct (Nat.eqb_spec (channels s) 1); [lia|reflexivity]).
      exists g, c. cbn [semsh]. split; [cbn [in_shape features channels repetitions]; split; [rewrite Dw; exact Hg|split; [exact Ic|exact Ir]]|].
      cbn [n_nan length]. apply (anyb_true _ _ i Hi). rewrite Bc.
      assert (i = 0 \/ i = 1)%nat as [-> | ->] by lia; cbn [nth take n_nan]; rewrite ?Na, ?Nb by exact Hg; rewrite <- Ef; exact Hn.
  - subst nr. unfold bcast. rewrite Nat.eqb_refl. cbn [bind]. eexists. split; [reflexivity|]. split; [reflexivity|].
    assert (Br : bidx (repetitions s) r = r) by (unfold bidx; destruct (Nat.eqb_spec (repetitions s) 1); [lia|reflexivity]).
    assert (0 < co)%nat by (destruct co; [exfalso; exact (proj1 (Hnz 0%nat (repetitions s) lg) eq_refl)|lia]).
    exists f, 0%nat. split; [repeat split; cbn [semsh features channels repetitions]; assumption|].
    cbn [n_nan]. apply (anyb_true _ _ c Ic). rewrite Br. exact Hn.
  - destruct HF as (<- & ->). rewrite Nat.eqb_refl. cbn [negb]. eexists. split; [reflexivity|]. split; [reflexivity|].
    exists f, c. split; [repeat split; cbn [semsh features channels repetitions]; assumption || lia|].
    cbn [n_nan]. apply (anyb_true _ _ r Ir). exact Hn.
  - destruct HF as (<- & (w & Hw & EW)). rewrite Nat.eqb_refl. cbn [negb]. rewrite EW, (split2 Interleaved w ltac:(discriminate) Hw).
    eexists. split; [reflexivity|]. assert (Dw : (w * 2 / 2 = w)%nat) by (apply Nat.div_mul; lia).
    split; [cbn [semsh n_t t_sh]; now rewrite EW|].
    rewrite EW in If. destruct (in_feature_sur Interleaved w f If) as (g & i & Hg & Hi & Ef).
    assert (0 < co)%nat by (destruct co; [exfalso; exact (proj1 (proj2 (Hnz 0%nat (repetitions s) lg)) eq_refl)|lia]).
    exists g, 0%nat. split; [repeat split; cbn [semsh features channels repetitions]; rewrite ?EW, ?Dw; assumption|].
    cbn [n_nan]. apply (anyb_true _ _ c Ic). unfold take. cbn [n_nan]. rewrite !nth_map_seq by exact Hg.
    assert (i = 0 \/ i = 1)%nat as [-> | ->] by lia; rewrite <- Ef, Hn; [reflexivity|apply orb_true_r].
  - destruct HF as (<- & (w & Hw & EW)). rewrite Nat.eqb_refl. cbn [negb]. rewrite EW, (split2 Interleaved w ltac:(discriminate) Hw).
    eexists. split; [reflexivity|]. assert (Dw : (w * 2 / 2 = w)%nat) by (apply Nat.div_mul; lia).
    split; [cbn [semsh n_t t_sh]; now rewrite EW|].
    rewrite EW in If. destruct (in_feature_sur Interleaved w f If) as (g & i & Hg & Hi & Ef).
    assert (0 < co)%nat by (destruct co; [exfalso; exact (proj2 (proj2 (Hnz (repetitions s) 0%nat (fun _ _ _ _ => 0))) sc lg eq_refl)|lia]).
    exists g, 0%nat. split; [repeat split; cbn [semsh features channels repetitions]; rewrite ?EW, ?Dw; assumption|].
    cbn [n_nan]. apply orb_true_iff. left. apply (anyb_true _ _ c Ic). unfold take. cbn [n_nan]. rewrite !nth_map_seq by exact Hg.
    assert (i = 0 \/ i = 1)%nat as [-> | ->] by lia; rewrite <- Ef, Hn; [reflexivity|apply orb_true_r].
  - eexists. split; [reflexivity|]. split; [reflexivity|]. exists 0%nat, c.
    split; [repeat split; cbn [semsh features channels repetitions]; assumption || lia|].
    cbn [n_nan]. apply (anyb_true _ _ f If). exact Hn.
Qed.

Lemma goods_nan ops ds s de : goods ops ds s de -> exists ls, assemble ds ops = Ok ls /\
  forall t r, t_sh (n_t t) = s -> some_nan t s r -> exists t' r', run_all ls t = Ok t' /\ t_sh (n_t t') = shs ops s /\ some_nan t' (shs ops s) r'.
Proof.
  induction 1 as [ds s|o rest ds s ds' de Ed Ag Hf Hm Ag' _ IH].
  - exists []. split; [reflexivity|]. intros t r E H. exists t, r. split; [reflexivity|]. auto.
  - destruct IH as (ls & Ea & Hr). cbn [assemble]. rewrite Ed. cbn [bind]. rewrite Ea. cbn [bind].
    exists (mkLay o ds ds' :: ls). split; [reflexivity|].
    intros t r Et Hn. cbn [run_all].
    destruct (run_nan (mkLay o ds ds') t s r Et (proj1 Ag) (proj2 Ag) Hf) as (t' & -> & Et' & Hn').
    + cbn [l_op]. intros co nr lg. split; [|split; [|intros sc pl]]; intros ->; cbn [decl] in Ed.
      * discriminate Ed.
      * destruct (Nat.ltb (features ds) 2); [discriminate|]. destruct (negb _); discriminate.
      * destruct (Nat.ltb (features ds) 2); [discriminate|]. destruct (negb _); discriminate.
    + exact Hn.
    + cbn [bind]. cbn [l_op] in Et', Hn'. exact (Hr t' _ Et' Hn').
Qed.

(** an impossible leaf value makes another group NaN *)
Section Base.
Variables (m : module) (s : shape) (depth reps : nat) (d : draw) (fm : fact).
Hypothesis (Bm : built m) (Es : ll_shape m = Ok s).
Let nf := length (query (scope_of m)).
Hypothesis (One : features (out_shape m) = nf).
Hypothesis (Hreps : repetitions s = reps \/ repetitions s = 1%nat) (HRpos : (0 < reps)%nat).
Hypothesis Hs : Permutation (d_sizes d) (base_sizes nf (2 ^ depth)).
Hypothesis Hp : forall r, Permutation (d_perms d r) (seq 0 nf).
Hypothesis Hm : mk_factorize nf nf (channels (out_shape m)) depth reps (d_sizes d) (d_perms d) = Ok fm.
Lemma fact_nan x i c r : (0 < depth)%nat -> in_shape s i c r -> loglik m x i c r = NInf ->
  exists t q, bind (leaf_tensor m x) (fact_run fm) = Ok t /\ t_sh (n_t t) = base_shape m depth reps /\ some_nan t (base_shape m depth reps) q.
Proof.
  intros Hd (Ii & Ic & Ir) HN. destruct (ll_shape_spec m s (built_wf m Bm) Es) as (E1 & E2 & _).
  unfold leaf_tensor. rewrite Es. cbn [bind]. unfold fact_run. cbn [t_sh].
  destruct (m_fields nf (channels (out_shape m)) depth reps _ _ fm Hm) as (Fn & Fi & Fc & Fo & Fr).
  assert (Eb : bcast (repetitions s) (fc_reps fm) = Ok reps).
  { unfold bcast. rewrite Fr. destruct Hreps as [-> | ->].
    - now rewrite Nat.eqb_refl.
    - destruct (Nat.eqb_spec 1 reps) as [<-|]; [reflexivity|]. reflexivity. }
  rewrite Eb. cbn [bind]. cbv zeta.
  assert (K : forall ll f c r, exists v, fact_ll fm ll f c r = Ok v).
  { intros ll f c' r'. unfold fact_ll. rewrite Fn, Fi, Nat.eqb_refl. eauto. }
  destruct (K (fun (i0 c0 r0 : nat) => t_ll (mkT s (loglik m x)) i0 c0 (bidx (repetitions s) r0)) 0%nat 0%nat (bidx (fc_reps fm) 0)) as (v0 & ->).
  (* the repetition and a group that does not own feature i *)
  assert (Hq : exists q, (q < reps)%nat /\ bidx (repetitions s) q = r).
  { unfold bidx. destruct (Nat.eqb_spec (repetitions s) 1) as [E|E].
    - exists 0%nat. split; [exact HRpos|lia].
    - exists r. split; [|reflexivity]. destruct Hreps; [lia|contradiction]. }
  destruct Hq as (q & Hq & Eq). assert (Hi : (i < nf)%nat) by lia.
  destruct (owner_exists _ _ _ _ _ _ _ _ Hs Hp Hm q i Hi) as (o & Ho & Eo).
  assert (Hother : exists f, (f < 2 ^ depth)%nat /\ f <> o).
  { assert (2 <= 2 ^ depth)%nat by (rewrite (pow_half depth) by exact Hd; pose proof (pow_pos (depth - 1)); lia).
    destruct (Nat.eq_dec o 0) as [->|N]; [exists 1%nat|exists 0%nat]; lia. }
  destruct Hother as (f & Hf & Nf).
  eexists. exists q. split; [reflexivity|]. split; [cbn [n_t t_sh]; rewrite Fo, Fc; reflexivity|].
  exists f, c. split; [repeat split; cbn [base_shape features channels repetitions]; lia|].
  cbn [n_nan t_ll]. rewrite Fr, (bidx_reps reps q Hq).
  rewrite (ll_nan nf (channels (out_shape m)) depth reps _ _ fm Hm _ f c q i Hi).
  - reflexivity.
  - now rewrite Eq.
  - destruct (fc_mat fm q i f) eqn:E; [|reflexivity]. exfalso. apply Nf. exact (owner_unique _ _ _ _ _ _ _ _ Hs Hp Hm q i f o E Eo).
Qed.
End Base.

(** ** splits into three or more parts *)
Lemma split_idx_few k n F idx : (3 <= n)%nat -> (1 <= F < n)%nat -> split_idx k n F = Ok idx ->
  exists a rest, idx = a :: rest /\ length a = 1%nat /\ exists b, In b rest /\ length b = 0%nat.
Proof.
  intros Hn HF. destruct k; cbn [split_idx].
  - unfold split_consecutive. rewrite seq_length, Nat.div_small by lia. discriminate.
  - intros E. injection E as <-. unfold split_interleaved. destruct n as [|n]; [lia|]. cbn [seq map].
    assert (SL : forall i, length (strided (S n) i (seq 0 F)) = length (filter (fun a => Nat.eqb a i) (seq 0 F))).
    { intros i. unfold strided. rewrite map_length, seq_length.
      assert (G : forall a l, (forall x, In x (seq a l) -> (x < S n)%nat) ->
        length (filter (fun p : nat * nat => Nat.eqb (fst p mod S n) i) (combine (seq a l) (seq a l))) = length (filter (fun x => Nat.eqb x i) (seq a l))).
      { intros a l. revert a. induction l as [|l IH]; intros a H; [reflexivity|]. cbn [seq combine filter fst].
        rewrite Nat.mod_small by (apply H; left; reflexivity). specialize (IH (S a) (fun x Hx => H x (or_intror Hx))).
        destruct (Nat.eqb a i); cbn [length]; now rewrite IH. }
      apply G. intros x Hx. apply in_seq in Hx. lia. }
    assert (O1 : forall l a i, length (filter (fun x => Nat.eqb x i) (seq a l)) = if (Nat.leb a i && Nat.ltb i (a + l))%bool then 1%nat else 0%nat).
    { induction l as [|l IH]; intros a i; cbn [seq filter].
      - destruct (Nat.leb_spec a i), (Nat.ltb_spec i (a + 0)); cbn [andb length]; lia || reflexivity.
      - destruct (Nat.eqb_spec a i) as [->|N]; cbn [length]; rewrite IH.
        + destruct (Nat.leb_spec (S i) i), (Nat.leb_spec i i), (Nat.ltb_spec i (i + S l)); cbn [andb]; lia || reflexivity.
        + destruct (Nat.leb_spec (S a) i), (Nat.leb_spec a i), (Nat.ltb_spec i (S a + l)), (Nat.ltb_spec i (a + S l)); cbn [andb]; lia || reflexivity. }
    eexists. eexists. split; [reflexivity|]. split.
    + rewrite SL, O1. cbn [Nat.leb andb plus]. destruct (Nat.ltb_spec 0 F); [reflexivity|lia].
    + exists (strided (S n) n (seq 0 F)). split; [apply in_map_iff; exists n; split; [reflexivity|apply in_seq; lia]|].
      rewrite SL, O1. cbn [Nat.leb andb plus]. destruct (Nat.ltb_spec n F); [lia|reflexivity].
  - discriminate.
Qed.
Lemma run_few outer k n si so t : (3 <= n)%nat -> (1 <= features si < n)%nat -> run (mkLay (OProd outer k n) si so) t = Err.
Proof.
  intros Hn HF. unfold run. cbv zeta. cbn [l_op l_in l_out].
  destruct (Nat.eqb_spec (features (t_sh (n_t t))) (features si)) as [E|E]; [|reflexivity].
  destruct (Nat.eqb (channels (t_sh (n_t t))) (channels si)); cbn [andb negb]; [|reflexivity]. rewrite E.
  destruct (split_idx k n (features si)) as [idx|] eqn:Ei; [|reflexivity]. cbn [bind].
  destruct (split_idx_few k n (features si) idx Hn HF Ei) as (a & rest & -> & La & b & Hb & Lb). cbn [map].
  assert (Q : forall g, (forall u v, length u = 1%nat -> length v = 0%nat -> g (n_t (take t u)) (n_t (take t v)) = false) ->
    forallb (g (n_t (take t a))) (map n_t (map (take t) rest)) = false).
  { intros g Hg. apply not_true_is_false. intros T. rewrite forallb_forall in T.
    specialize (T (n_t (take t b))). rewrite (Hg a b La Lb) in T. discriminate T. rewrite map_map. apply in_map_iff. eauto. }
  destruct outer.
  - unfold outer_shape. rewrite (Q (fun t0 t1 => (Nat.eqb (t_ft t1) (t_ft t0) || Nat.eqb (t_ft t1) 1) && Nat.eqb (repetitions (t_sh t1)) (repetitions (t_sh t0)))%bool); [reflexivity|].
    intros u v Hu Hv. unfold take, t_ft. cbn [n_t t_sh features]. rewrite Hu, Hv. reflexivity.
  - unfold ew_shape. rewrite (Q (fun t0 t1 => (Nat.eqb (t_ft t1) (t_ft t0) && Nat.eqb (repetitions (t_sh t1)) (repetitions (t_sh t0)))%bool)).
    + rewrite andb_false_r. reflexivity.
    + intros u v Hu Hv. unfold take, t_ft. cbn [n_t t_sh features]. rewrite Hu, Hv. reflexivity.
Qed.

(** if every declared number of features is below the bound, no row is evaluated *)
Lemma levels_fail c p k n : (3 <= n)%nat -> forall len i s ls rest t, (i + S len = ra_depth c)%nat ->
  assemble s (flat_map (rat_level c p k n) (seq i (S len)) ++ rest) = Ok ls ->
  (1 <= features s <= 2 ^ S len)%nat -> run_all ls t = Err.
Proof.
  intros Hn. induction len as [|len IH]; intros i s ls rest t Hi Ha HF.
  - cbn [seq flat_map app rat_level assemble] in Ha. destruct (decl (OProd (ra_outer c) k n) s) as [s1|]; [|discriminate]. cbn [bind] in Ha.
    destruct (decl (OSum _ _ _) s1); [|discriminate]. cbn [bind] in Ha. destruct (assemble _ rest); [|discriminate]. cbn [bind] in Ha.
    injection Ha as <-. cbn [run_all]. rewrite run_few; [reflexivity|exact Hn|]. cbn [Nat.pow] in HF. lia.
  - change (seq i (S (S len))) with (i :: seq (S i) (S len)) in Ha. cbn [flat_map] in Ha. rewrite <- app_assoc in Ha.
    change (rat_level c p k n i ++ flat_map (rat_level c p k n) (seq (S i) (S len)) ++ rest) with
      (nth 0 (rat_level c p k n i) OAll :: nth 1 (rat_level c p k n i) OAll :: (flat_map (rat_level c p k n) (seq (S i) (S len)) ++ rest)) in Ha.
    set (L := flat_map (rat_level c p k n) (seq (S i) (S len)) ++ rest) in Ha. cbn [rat_level nth assemble] in Ha.
    destruct (decl (OProd (ra_outer c) k n) s) as [s1|] eqn:D1; [|discriminate]. cbn [bind] in Ha.
    destruct (decl (OSum _ _ _) s1) as [s2|] eqn:D2; [|discriminate]. cbn [bind] in Ha.
    destruct (assemble s2 L) as [ls'|] eqn:Ea; [|discriminate]. cbn [bind] in Ha. injection Ha as <-. cbn [run_all].
    destruct (Nat.lt_ge_cases (features s) n) as [Lt|Lt].
    + rewrite run_few; [reflexivity|exact Hn|lia].
    + destruct (run _ t) as [t1|]; [|reflexivity]. cbn [bind]. destruct (run _ t1) as [t2|]; [|reflexivity]. cbn [bind].
      apply (IH (S i) s2 ls' rest t2); [lia|exact Ea|].
      assert (F2 : features s2 = features s1).
      { unfold decl in D2. destruct (Nat.ltb _ 1); [discriminate|]. injection D2 as <-. reflexivity. }
      rewrite F2. assert (PW : (2 ^ S (S len) = 2 * 2 ^ S len)%nat) by reflexivity. rewrite PW in HF.
      assert (B : (1 <= features s1)%nat /\ (features s1 <= features s / 2)%nat).
      { unfold decl in D1. destruct (ra_outer c).
        - destruct (outer_check _); [|discriminate]. injection D1 as <-. cbn [features]. split; [|lia].
          apply Nat.div_le_lower_bound; lia.
        - destruct (ew_check _); [|discriminate]. injection D1 as <-. cbn [features].
          destruct (Nat.eqb_spec (features s) 1) as [E1|_]; [lia|]. split.
          + apply Nat.div_le_lower_bound; lia.
          + apply Nat.div_le_compat_l. lia. }
      destruct B as [B1 B2]. split; [exact B1|]. assert (features s / 2 <= 2 ^ S len)%nat by (apply Nat.div_le_upper_bound; lia). lia.
Qed.
