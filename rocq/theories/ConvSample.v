(** The samplers of the convolutional circuits follow the (conditional) distribution
    when kernels divide the grid and there is no padding. *)
From Coq Require Import List Arith Bool Lia Lra Permutation Sorted.
From Verif Require Import Base ScopeModel ScopeProofs CircuitModel CircuitSpec CircuitBasics CircuitEval Integral CircuitMarg CircuitProps SampleModel SampleSpec SampleExp SampleProofs SampleTop SampleApi ConvModel ConvSpec ConvProofs.
Import ListNotations.
Local Open Scope R_scope.

Lemma conv_out_div n k : (1 <= k)%nat -> (n mod k = 0)%nat -> (k * conv_out n k 0 = n)%nat.
Proof.
  intros Hk Hm. unfold conv_out. rewrite Nat.mul_0_r, Nat.add_0_r. pose proof (Nat.div_mod n k ltac:(lia)). lia.
Qed.

Lemma exact_covered v : vwf v -> exact_fit v -> covered v.
Proof.
  induction v as [m|c IH co rr lg|c IH|c IH co K rr lg|c IH kh kw ph pw]; cbn; auto; try tauto.
  intros (W & Hh & Hw & Sq) (E & -> & -> & M1 & M2).
  rewrite !conv_out_div by assumption. repeat split; auto; lia.
Qed.

Lemma window_cover n kh kw ph pw g : (1 <= kh)%nat -> (1 <= kw)%nat ->
  (n + ph <= kh * conv_out n kh ph)%nat -> (n + pw <= kw * conv_out n kw pw)%nat -> (g < n * n)%nat ->
  exists f, (f < conv_out n kh ph * conv_out n kw pw)%nat /\ In g (window n kh kw ph pw f).
Proof.
  intros Hh Hw Ch Cw Hg. destruct (dec_lt n n g Hg) as (A & B & C).
  assert ((g / n + ph) / kh < conv_out n kh ph)%nat as H1 by (apply Nat.div_lt_upper_bound; lia).
  assert ((g mod n + pw) / kw < conv_out n kw pw)%nat as H2 by (apply Nat.div_lt_upper_bound; lia).
  exists ((g / n + ph) / kh * conv_out n kw pw + (g mod n + pw) / kw)%nat. split; [now apply enc_lt|].
  apply window_In; auto. destruct (div_mod_enc (conv_out n kw pw) ((g / n + ph) / kh) ((g mod n + pw) / kw) H2) as [-> ->]. auto.
Qed.

Lemma vnthq_base v : vwf v -> forall f u, (f < features (vshape v))%nat -> In u (vnthq v f) -> In u (query (scope_of (vbase v))).
Proof.
  induction v as [m|c IH co rr lg|c IH|c IH co K rr lg|c IH kh kw ph pw]; intros W f u Hf Hu.
  - destruct W as [W _]. apply (wf_union m (wf_wf1 m W)). eauto.
  - apply (IH (proj1 W) f u Hf Hu).
  - rewrite vnthq_product in Hu; [|apply (vwf_vwf1 c W)|exact Hf]. apply prod_In in Hu. destruct Hu as (g & Hg & Hu).
    apply in_seq in Hg. apply (IH W g u); [lia|exact Hu].
  - apply (IH (proj1 W) f u Hf Hu).
  - destruct W as (W & Hh & Hw & Sq). rewrite vnthq_prodconv in Hu by exact Hf. apply prod_In in Hu.
    destruct Hu as (g & Hg & Hu). apply window_In in Hg; auto. apply (IH W g u); [lia|exact Hu].
Qed.

Lemma vnthq_cover v : vwf v -> covered v -> forall u, In u (query (scope_of (vbase v))) ->
  exists f, (f < features (vshape v))%nat /\ In u (vnthq v f).
Proof.
  induction v as [m|c IH co rr lg|c IH|c IH co K rr lg|c IH kh kw ph pw]; intros W C u Hu.
  - destruct W as [W _]. apply (wf_union m (wf_wf1 m W)). exact Hu.
  - apply (IH (proj1 W) C u Hu).
  - destruct (IH W C u Hu) as (f & Hf & Hin). exists 0%nat. split; [cbn; lia|].
    rewrite vnthq_product; [|apply (vwf_vwf1 c W)|lia]. apply prod_In. exists f. split; [apply in_seq; lia|exact Hin].
  - apply (IH (proj1 W) C u Hu).
  - destruct W as (W & Hh & Hw & Sq). destruct C as (C & C1 & C2). destruct (IH W C u Hu) as (g & Hg & Hin).
    rewrite <- Sq in Hg. destruct (window_cover _ kh kw ph pw g Hh Hw C1 C2 Hg) as (f & Hf & Hf'). exists f. split; [exact Hf|].
    rewrite vnthq_prodconv by exact Hf. apply prod_In. eauto.
Qed.

Lemma vscope_base v : vwf v -> covered v -> forall u, In u (query (vscope v)) <-> In u (query (scope_of (vbase v))).
Proof.
  induction v as [m|c IH co rr lg|c IH|c IH co K rr lg|c IH kh kw ph pw]; intros W C u.
  - reflexivity.
  - apply (IH (proj1 W) C).
  - apply (IH W C).
  - apply (IH (proj1 W) C).
  - destruct W as (W & Hh & Hw & Sq). destruct C as (C & _). cbn [vscope query vbase]. rewrite sortu_In, in_concat. split.
    + intros (q & Hq & Hu). apply In_nth with (d := []) in Hq. destruct Hq as (f & Hf & <-).
      rewrite (v_len c (vwf_vwf1 c W)) in Hf. apply (vnthq_base c W f u Hf Hu).
    + intros Hu. destruct (vnthq_cover c W C u Hu) as (f & Hf & Hin). exists (vnthq c f). split; [|exact Hin].
      apply nth_In. now rewrite (v_len c (vwf_vwf1 c W)).
Qed.

Lemma vfpos v : vwf v -> exact_fit v -> (0 < features (vshape v))%nat.
Proof.
  induction v as [m|c IH co rr lg|c IH|c IH co K rr lg|c IH kh kw ph pw]; intros W E.
  - apply (wf_fpos m (wf_wf1 m (proj1 W))).
  - apply (IH (proj1 W) E).
  - cbn. lia.
  - apply (IH (proj1 W) (proj1 E)).
  - destruct W as (W & Hh & Hw & Sq). destruct E as (E & -> & -> & M1 & M2). specialize (IH W E). rewrite <- Sq in IH.
    pose proof (conv_out_div _ _ Hh M1). pose proof (conv_out_div _ _ Hw M2). cbn [vshape features]. fold (side c). nia.
Qed.

(** regrouping a product over all inputs by windows *)
Lemma regroup F Fc (wins : nat -> list nat) (phi : nat -> R) :
  (forall f, (f < F)%nat -> NoDup (wins f)) ->
  (forall f g, (f < F)%nat -> In g (wins f) -> (g < Fc)%nat) ->
  (forall f f' g, (f < F)%nat -> (f' < F)%nat -> In g (wins f) -> In g (wins f') -> f = f') ->
  (forall g, (g < Fc)%nat -> exists f, (f < F)%nat /\ In g (wins f)) ->
  bprod Fc phi = bprod F (fun f => lprod (wins f) phi).
Proof.
  intros N B Dj C. rewrite !bprod_lprod, <- lprod_flat_map. apply lprod_perm. apply NoDup_Permutation.
  - apply seq_NoDup.
  - apply flat_map_NoDup; [apply seq_NoDup| |].
    + intros f Hf. apply in_seq in Hf. apply N. lia.
    + intros f f' g Hf Hf'. apply in_seq in Hf, Hf'. apply Dj; lia.
  - intros g. rewrite in_seq, in_flat_map. split.
    + intros Hg. destruct (C g ltac:(lia)) as (f & Hf & Hin). exists f. split; [apply in_seq; lia|exact Hin].
    + intros (f & Hf & Hin). apply in_seq in Hf. specialize (B f g ltac:(lia) Hin). lia.
Qed.

Lemma lprod_pjoin_win ch ws phi : vwf ch -> NoDup ws -> (forall g, In g ws -> (g < features (vshape ch))%nat) ->
  lprod (pjoin (map (vnthq ch) ws)) phi = lprod ws (fun g => lprod (vnthq ch g) phi).
Proof.
  intros W ND B. pose proof (vwf_vwf1 ch W) as W1. rewrite <- lprod_flat_map. apply lprod_perm. apply NoDup_Permutation.
  - assert (StronglySorted lt (pjoin (map (vnthq ch) ws))) as S; [|now apply ssorted_NoDup].
    apply pjoin_sorted. apply Forall_forall. intros q Hq. apply in_map_iff in Hq. destruct Hq as (g & <- & Hg).
    apply (v_sorted ch W1). now apply B.
  - apply flat_map_NoDup; [exact ND| |].
    + intros g Hg. apply ssorted_NoDup. apply (v_sorted ch W1). now apply B.
    + intros g g' u Hg Hg' Hu Hu'. destruct (Nat.eq_dec g g') as [E|E]; [exact E|exfalso].
      apply (v_disj ch W1 g g' (B g Hg) (B g' Hg') E u Hu Hu').
  - intros u. rewrite prod_In, in_flat_map. reflexivity.
Qed.

Section Sampler.
Variables (D : nat -> domain) (W : nat) (ev : option row) (e : row).
Variables (h : nat -> R -> R) (I : leaf -> nat -> nat -> nat -> R).
Hypothesis hpos : forall v a, 0 <= h v a.

Definition VQ1 v f c := vprob v e f c 0.
Definition VQh v f c := vpev (sc_h e I) v f c 0.

Definition vleaf_int (v : cv) : Prop := forall l f c r, In l (vleaves v) -> leaf_range l f c r ->
  sums (D (colv l f)) (fun a => pr (l_lp l f c r a) * h (colv l f) a) (I l f c r).

Definition vevok (v : cv) : Prop :=
  (ev = Some e /\ vsums_positive v e) \/ (ev = None /\ forall u, In u (query (scope_of (vbase v))) -> e u = None).

Definition vreps_fine (v : cv) : Prop := (exists s, vll_shape v = Ok s) /\ (0 < vll_reps v)%nat.
Definition vcols_fine (v : cv) : Prop := forall u, In u (query (scope_of (vbase v))) -> (u < W)%nat.

Lemma VQh_zero v : vwf v -> forall f c r, vpos v f c r -> vprob v e f c r = 0 -> vpev (sc_h e I) v f c r = 0.
Proof.
  intros Wv f c r V. revert f c r V.
  apply (vind (fun v f c r => vprob v e f c r = 0 -> vpev (sc_h e I) v f c r = 0)); auto.
  - intros m f c r Wm Am P H. apply (Qh_zero e I m Wm Am f c r P H).
  - intros v0 ch w f c r r' W0 EL EN Cp E Hw1 Hw2 IH. rewrite vprob_pev, !E. intros H. apply bsum_zero. intros i Hi.
    assert (w i * vpev (leaf_score e) ch f i r' = 0) as Z.
    { eapply bsum_nonneg_zero in H; [exact H| |exact Hi]. intros j Hj. apply Rmult_le_pos; [left; apply Hw1|apply vpev_nonneg]. }
    apply Rmult_integral in Z. destruct Z as [Z|Z]; [rewrite Z; ring|].
    destruct (IH i Hi) as [_ IHi]. rewrite (IHi Z). ring.
  - intros v0 ch ws f c r W0 EL EN ND E IH. rewrite vprob_pev, !E. intros H. apply lprod_zero_ex in H.
    destruct H as (g & Hg & Z). apply lprod_zero with (a := g); [exact Hg|]. destruct (IH g Hg) as (_ & _ & IHg). now apply IHg.
Qed.

Definition vtfull (v : cv) (t : ctx) : Prop :=
  length (c_ci t) = features (vshape v) /\ length (c_mask t) = features (vshape v) /\ c_rep t = 0%nat /\
  forall f, (f < features (vshape v))%nat -> (nth f (c_ci t) 0 < channels (vshape v))%nat.

Definition VC (v : cv) (mask : list bool) (u : nat) : Prop :=
  exists f, (f < features (vshape v))%nat /\ nth f mask false = true /\ In u (vnthq v f).
Definition VT (v : cv) (mask : list bool) (y : row) : R :=
  bprod (features (vshape v)) (fun f => if nth f mask false then tst e h (vnthq v f) y else 1).
Definition VR (v : cv) (t : ctx) : R :=
  bprod (features (vshape v)) (fun f => if nth f (c_mask t) false
     then VQh v f (nth f (c_ci t) 0%nat) / VQ1 v f (nth f (c_ci t) 0%nat) else 1).

Definition vsspec (v : cv) : Prop := forall t, vtfull v t ->
  (forall f, (f < features (vshape v))%nat -> nth f (c_mask t) false = true -> VQ1 v f (nth f (c_ci t) 0%nat) <> 0) ->
  spec D e (vsample false W ev v t) (VC v (c_mask t)) (VT v (c_mask t)) (VR v t).

(** *** products *)
Lemma prod_node_spec v ch (wins : nat -> list nat) : vwf ch ->
  channels (vshape v) = channels (vshape ch) ->
  (forall f, (f < features (vshape v))%nat -> NoDup (wins f)) ->
  (forall f g, (f < features (vshape v))%nat -> In g (wins f) -> (g < features (vshape ch))%nat) ->
  (forall f f' g, (f < features (vshape v))%nat -> (f' < features (vshape v))%nat -> In g (wins f) -> In g (wins f') -> f = f') ->
  (forall g, (g < features (vshape ch))%nat -> exists f, (f < features (vshape v))%nat /\ In g (wins f)) ->
  (forall f, (f < features (vshape v))%nat -> vnthq v f = pjoin (map (vnthq ch) (wins f))) ->
  (forall s f c r, vpev s v f c r = lprod (wins f) (fun g => vpev s ch g c r)) ->
  (forall t, vtfull v t -> exists t1, vtfull ch t1 /\
     (forall f g, (f < features (vshape v))%nat -> In g (wins f) ->
        nth g (c_ci t1) 0%nat = nth f (c_ci t) 0%nat /\ nth g (c_mask t1) false = nth f (c_mask t) false) /\
     forall x, vsample false W ev v t x = vsample false W ev ch t1 x) ->
  vsspec ch -> vsspec v.
Proof.
  intros Wc EC N B Dj C EN EV Route IH t Tf HQ.
  destruct (Route t Tf) as (t1 & Tf1 & Hrt & EQ). clear Route.
  assert (forall f g, (f < features (vshape v))%nat -> In g (wins f) -> nth f (c_mask t) false = true ->
     VQ1 ch g (nth f (c_ci t) 0%nat) <> 0) as HQ1.
  { intros f g Hf Hg Hm Z. apply (HQ f Hf Hm). unfold VQ1. rewrite vprob_pev, EV. apply lprod_zero with (a := g); [exact Hg|exact Z]. }
  eapply spec_ext; [intros x; symmetry; apply EQ| | | |apply (IH t1 Tf1)].
  - intros u. unfold VC. split.
    + intros (g & Hg & Hm & Hu). destruct (C g Hg) as (f & Hf & Hin). exists f. split; [exact Hf|].
      destruct (Hrt f g Hf Hin) as [_ E]. split; [congruence|]. rewrite EN by exact Hf. apply prod_In. eauto.
    + intros (f & Hf & Hm & Hu). rewrite EN in Hu by exact Hf. apply prod_In in Hu. destruct Hu as (g & Hg & Hu).
      exists g. split; [now apply (B f)|]. destruct (Hrt f g Hf Hg) as [_ E]. split; [congruence|exact Hu].
  - intros y. unfold VT. rewrite (regroup (features (vshape v)) (features (vshape ch)) wins) by assumption.
    apply bprod_ext. intros f Hf. rewrite EN by exact Hf. destruct (nth f (c_mask t) false) eqn:Em.
    + unfold tst at 2. rewrite lprod_pjoin_win; [|exact Wc|now apply N|intros g; now apply B]. apply lprod_ext. intros g Hg.
      destruct (Hrt f g Hf Hg) as [_ ->]. rewrite Em. reflexivity.
    + apply lprod_one. intros g Hg. destruct (Hrt f g Hf Hg) as [_ ->]. now rewrite Em.
  - unfold VR. rewrite (regroup (features (vshape v)) (features (vshape ch)) wins) by assumption.
    apply bprod_ext. intros f Hf. destruct (nth f (c_mask t) false) eqn:Em.
    + unfold VQh at 2. unfold VQ1 at 2. rewrite vprob_pev, !EV. rewrite <- lprod_div.
      * apply lprod_ext. intros g Hg. destruct (Hrt f g Hf Hg) as [-> ->]. rewrite Em. reflexivity.
      * intros g Hg. apply (HQ1 f g Hf Hg Em).
    + apply lprod_one. intros g Hg. destruct (Hrt f g Hf Hg) as [_ ->]. now rewrite Em.
  - intros g Hg Hm. destruct (C g Hg) as (f & Hf & Hin). destruct (Hrt f g Hf Hin) as [E1 E2]. rewrite E1.
    apply (HQ1 f g Hf Hin). congruence.
Qed.

(** *** mixtures *)
Lemma mix_node_spec v ch (w : nat -> nat -> nat -> R) (pick : nat -> nat -> prog nat) (sp : nat -> nat -> nat -> R) :
  let n := channels (vshape ch) in
  let F := features (vshape v) in
  vwf ch -> features (vshape ch) = F -> vreps_fine ch ->
  (forall f, vnthq v f = vnthq ch f) ->
  (forall f c, (f < F)%nat -> (c < channels (vshape v))%nat -> VQ1 v f c <> 0) ->
  (forall f c, (f < F)%nat -> VQ1 v f c = bsum n (fun i => w f c i * VQ1 ch f i)) ->
  (forall f c, (f < F)%nat -> VQh v f c = bsum n (fun i => w f c i * VQh ch f i)) ->
  (forall f c, (f < F)%nat -> (c < channels (vshape v))%nat -> pick f c = Choose n (sp f c) (fun i => Ret i)) ->
  (forall f c i, (f < F)%nat -> (c < channels (vshape v))%nat -> (i < n)%nat -> sp f c i = w f c i * VQ1 ch f i / VQ1 v f c) ->
  (forall t x, vtfull v t -> vsample false W ev v t x =
     pbind (choose_channels pick 0 (c_ci t)) (fun ns => vsample false W ev ch (mkCtx ns (c_mask t) 0) x)) ->
  vsspec ch -> vsspec v.
Proof.
  intros n F Wc EF Rc EN Nz E1 Eh Hp Hsp EQ IH t Tf HQ. pose proof Tf as (Lc & Lm & Hr & Hch). fold F in Lc, Lm, Hch.
  assert (forall j, (j < length (c_ci t))%nat -> pick (0 + j)%nat (nth j (c_ci t) 0%nat) = Choose n (sp (0 + j)%nat (nth j (c_ci t) 0%nat)) (fun i => Ret i)) as Hpick.
  { intros j Hj. rewrite Lc in Hj. apply Hp; [exact Hj|now apply Hch]. }
  assert (forall ns, outcome (choose_channels pick 0 (c_ci t)) ns ->
    vtfull ch (mkCtx ns (c_mask t) 0) /\
    forall f, (f < F)%nat -> nth f (c_mask t) false = true -> VQ1 ch f (nth f ns 0%nat) <> 0) as Hns.
  { intros ns Ho. destruct (choose_outcome n _ _ (c_ci t) 0 ns Hpick Ho) as [Ln Hn]. rewrite Lc in *. split.
    - unfold vtfull. rewrite EF. repeat split; cbn [c_ci c_mask c_rep]; auto. intros f Hf. apply Hn. exact Hf.
    - intros f Hf Hm Z. destruct (Hn f Hf) as [H1 H2]. apply H2. cbn [plus].
      rewrite Hsp; auto. rewrite Z. unfold Rdiv. ring. }
  split.
  - intros y y' E. unfold VT. apply bprod_ext. intros f Hf.
    destruct (nth f (c_mask t) false) eqn:Em; [|reflexivity].
    unfold tst. apply lprod_ext. intros u Hu. rewrite E; [reflexivity|]. exists f. auto.
  - intros x Hx. rewrite EQ by exact Tf.
    assert (forall u, VC ch (c_mask t) u <-> VC v (c_mask t) u) as EVC.
    { intros u. unfold VC. rewrite EF. fold F. split; intros (f & A & B & C); exists f; rewrite ?EN in *; auto. }
    assert (forall y, VT ch (c_mask t) y = VT v (c_mask t) y) as EVT.
    { intros y. unfold VT. rewrite EF. fold F. apply bprod_ext. intros f _. now rewrite EN. }
    split.
    + intros Af HA. apply expects_bind with (u2 := fun ns => Af x * VR ch (mkCtx ns (c_mask t) 0)).
      * pose proof (choose_expects D n pick sp (Af x)
          (fun f i => if nth f (c_mask t) false then VQh ch f i / VQ1 ch f i else 1) (c_ci t) 0 Hpick) as CE.
        rewrite Lc in CE. unfold VR at 1. cbn [c_mask c_ci]. rewrite EF.
        match goal with |- expects _ _ ?g ?u => match type of CE with expects _ _ _ ?u' => replace u with u' end end; [exact CE|].
        f_equal. unfold VR. fold F. apply bprod_ext. intros f Hf. cbn [plus].
        specialize (Hch f Hf). set (c := nth f (c_ci t) 0%nat) in *. pose proof (Nz f c Hf Hch) as Nzf.
        destruct (nth f (c_mask t) false) eqn:Em.
        -- rewrite (Eh f c Hf). unfold Rdiv at 2. rewrite <- bsum_scal_r. apply bsum_ext. intros i Hi.
           rewrite Hsp by assumption. destruct (Req_EM_T (VQ1 ch f i) 0) as [Z|NZ].
           ++ assert (VQh ch f i = 0) as ->.
              { apply VQh_zero; auto. destruct Rc as [R1 R2]. repeat split; auto. now rewrite EF. }
              rewrite Z. unfold Rdiv. ring.
           ++ field. split; assumption.
        -- erewrite bsum_ext; [|intros i Hi; rewrite Hsp by assumption; rewrite Rmult_1_r; reflexivity].
           rewrite bsum_div. rewrite <- E1 by exact Hf. field. exact Nzf.
      * intros ns Ho. destruct (Hns ns Ho) as [Tfn HQ']. rewrite <- EF in HQ'. destruct (IH _ Tfn HQ') as [_ IH2].
        destruct (IH2 x) as [IH3 _]; [intros u Hu; apply Hx; apply EVC; exact Hu|].
        eapply expects_ext; [|apply IH3].
        -- intros y _. cbn beta. cbn [c_mask]. now rewrite EVT.
        -- intros y Hy. apply HA. intros u Hu. apply Hy. intros C. apply Hu. apply EVC. exact C.
    + intros y Hy u Hu. apply outcome_bind in Hy. destruct Hy as (ns & Ho & Hy).
      destruct (Hns ns Ho) as [Tfn HQ']. rewrite <- EF in HQ'. destruct (IH _ Tfn HQ') as [_ IH2].
      destruct (IH2 x) as [_ IH4]; [intros w0 Hw0; apply Hx; apply EVC; exact Hw0|].
      apply (IH4 y Hy). intros C. apply Hu. apply EVC. exact C.
Qed.

Lemma vreps_child (v c : cv) : vwf v -> vreps_fine v ->
  match v with VMod _ => False | VSum c' _ _ _ | VProduct c' | VSumConv c' _ _ _ _ | VProdConv c' _ _ _ _ => c = c' end -> vreps_fine c.
Proof.
  intros Wv [(s & Hs) Hr] E. pose proof (vll_child _ _ Hs) as Ht.
  destruct v as [m|c' co rr lg|c'|c' co K rr lg|c' kh kw ph pw]; [contradiction| | | |]; subst c'; (split; [exact Ht|]); cbn [vll_reps] in Hr; auto.
  - destruct (Nat.eqb_spec (vll_reps c) 1); lia.
  - destruct (Nat.eqb_spec (vll_reps c) 1); lia.
Qed.

Lemma vrr_pos_sum c co rr lg s : vwf c -> vll_shape (VSum c co rr lg) = Ok s -> (0 < vll_reps (VSum c co rr lg))%nat -> (0 < rr)%nat.
Proof.
  intros Wc H Hr. cbn [vll_shape] in H. destruct (vll_shape c) as [t|] eqn:Ec; cbn [bind] in H; [|discriminate].
  destruct (vll_shape_spec c t Wc Ec) as (E1 & E2 & E3). rewrite E1, E2, !bcast_same in H. cbn [bind] in H.
  rewrite E3 in H. unfold bcast in H. cbn in Hr. destruct (Nat.eqb_spec (vll_reps c) 1); [exact Hr|].
  destruct (Nat.eqb_spec (vll_reps c) rr); [lia|]. destruct (Nat.eqb_spec rr 1); [lia|discriminate].
Qed.

Lemma vrr_pos_sumconv c co K rr lg s : vwf c -> vll_shape (VSumConv c co K rr lg) = Ok s -> (0 < vll_reps (VSumConv c co K rr lg))%nat -> (0 < rr)%nat.
Proof.
  intros Wc H Hr. cbn [vll_shape] in H. destruct (vll_shape c) as [t|] eqn:Ec; cbn [bind] in H; [|discriminate].
  destruct (vll_shape_spec c t Wc Ec) as (E1 & E2 & E3). rewrite E3 in H. cbn in Hr.
  destruct (Nat.eqb_spec (vll_reps c) 1); [exact Hr|]. destruct (Nat.eqb_spec (vll_reps c) rr); [lia|].
  cbn [negb andb] in H. discriminate.
Qed.

Lemma vreps_pos v : vwf v -> vreps_fine v -> (0 < repetitions (vshape v))%nat.
Proof.
  induction v as [m|c IH co rr lg|c IH|c IH co K rr lg|c IH kh kw ph pw]; intros Wv Rf.
  - destruct Wv as [Wm _]. apply (reps_pos m Wm); apply Rf.
  - destruct Wv as [Wc _]. destruct Rf as [(s & Hs) Hr]. apply (vrr_pos_sum c co rr lg s Wc Hs Hr).
  - apply IH; [exact Wv|]. apply (vreps_child (VProduct c) c Wv Rf eq_refl).
  - destruct Wv as [Wc _]. destruct Rf as [(s & Hs) Hr]. apply (vrr_pos_sumconv c co K rr lg s Wc Hs Hr).
  - apply IH; [apply Wv|]. apply (vreps_child (VProdConv c kh kw ph pw) c Wv Rf eq_refl).
Qed.

Lemma vevok_child v c : vevok v ->
  match v with VMod _ => False | VSum c' _ _ _ | VProduct c' | VSumConv c' _ _ _ _ | VProdConv c' _ _ _ _ => c = c' end -> vevok c.
Proof.
  intros H E. destruct v as [m|c' co rr lg|c'|c' co K rr lg|c' kh kw ph pw]; [contradiction| | | |]; subst c';
    (destruct H as [[H1 H2]|[H1 H2]]; [left|right]; (split; [exact H1|]); auto); apply H2.
Qed.

Lemma vevok_Q1 v : vwf v -> vreps_fine v -> ev = None -> vevok v ->
  forall f c, (f < features (vshape v))%nat -> (c < channels (vshape v))%nat -> VQ1 v f c = 1.
Proof.
  intros Wv [R1 R2] E [[E' _]|[_ H]] f c Hf Hc; [congruence|].
  apply vprob_all_nan; auto; [repeat split; auto|]. intros u Hu. apply H. now apply (vnthq_base v Wv f).
Qed.

(** the categorical the sampler draws from is the posterior *)
Lemma mix_pick_eq v ch co rr lr c (lg : nat -> R) (f : nat) :
  let n := channels (vshape ch) in
  (0 < n)%nat -> (c < co)%nat -> (0 < rr)%nat -> (0 < lr)%nat ->
  VQ1 v f c = bsum n (fun i => softmax n lg i * VQ1 ch f i) -> VQ1 v f c <> 0 ->
  ((ev = Some e) \/ (ev = None /\ forall i, (i < n)%nat -> VQ1 ch f i = 1)) ->
  exists sp, mix_pick false n co rr lr c 0 lg (option_map (fun e0 i => vloglik ch e0 f i 0) ev) = Choose n sp (fun i => Ret i) /\
  forall i, (i < n)%nat -> sp i = softmax n lg i * VQ1 ch f i / VQ1 v f c.
Proof.
  intros n Cp Hc Hrr Hlr E1 Nz Ev. unfold mix_pick.
  assert (Nat.ltb c co = true) as -> by now apply Nat.ltb_lt.
  assert (Nat.ltb 0 rr = true) as -> by now apply Nat.ltb_lt. cbn [andb].
  set (Z := bsum n (fun j => exp (lg j))).
  assert (0 < Z) as HZ by (apply bsum_pos; [assumption|intros; apply exp_pos]).
  assert (0 <= VQ1 v f c) as Nn by apply pr_nonneg.
  assert (forall (w : nat -> R), (forall i, (i < n)%nat -> w i = exp (lg i) * VQ1 ch f i) ->
    0 < bsum n w /\ (forall i, (i < n)%nat -> w i / bsum n w = softmax n lg i * VQ1 ch f i / VQ1 v f c)) as Key.
  { intros w Hw. assert (bsum n w = Z * VQ1 v f c) as EB.
    { rewrite E1, <- bsum_scal. apply bsum_ext. intros i Hi. rewrite Hw by assumption. unfold softmax. fold Z. field. lra. }
    split.
    - rewrite EB. apply Rmult_lt_0_compat; lra.
    - intros i Hi. rewrite EB, Hw by assumption. unfold softmax. fold Z. field. split; lra. }
  destruct Ev as [E|[E Q]]; rewrite E; cbn [option_map]; unfold sample_logits.
  - assert (Nat.ltb 0 lr = true) as -> by now apply Nat.ltb_lt.
    destruct (Key (fun i => pr (ladd (Fin (lg i)) (vloglik ch e f i 0)))) as [K1 K2].
    { intros i Hi. rewrite pr_ladd. reflexivity. }
    destruct (Rlt_dec 0 _) as [_|C]; [|contradiction]. eexists. split; [reflexivity|exact K2].
  - destruct (Key (fun i => pr (Fin (lg i)))) as [K1 K2].
    { intros i Hi. rewrite Q by assumption. cbn [pr]. ring. }
    destruct (Rlt_dec 0 _) as [_|C]; [|contradiction]. eexists. split; [reflexivity|exact K2].
Qed.
End Sampler.
