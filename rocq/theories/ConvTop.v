(** Assembling the correctness of the convolutional samplers. *)
From Coq Require Import List Arith Bool Lia Lra Permutation Sorted FunctionalExtensionality.
From Verif Require Import Base ScopeModel ScopeProofs CircuitModel CircuitSpec CircuitBasics CircuitEval Integral CircuitMarg CircuitProps SampleModel SampleSpec SampleExp SampleProofs SampleTop SampleApi PwlInit ConvModel ConvSpec ConvProofs ConvSample.
Import ListNotations.
Local Open Scope R_scope.

Lemma blocks_len' {A} (g : nat -> list A) L n s : (forall k, length (g k) = L) -> length (flat_map g (seq s n)) = (n * L)%nat.
Proof. intros HL. revert s. induction n as [|n IH]; intros s; [reflexivity|]. cbn [seq flat_map]. rewrite app_length, HL, IH. lia. Qed.

Lemma upsample_len {A} (d : A) oh ow kh kw l : length (upsample d oh ow kh kw l) = (oh * kh * (ow * kw))%nat.
Proof. unfold upsample. apply blocks_len'. intros k. now rewrite map_length, seq_length. Qed.

Lemma upsample_nth {A} (d : A) oh ow kh kw l a b : (a < oh * kh)%nat -> (b < ow * kw)%nat ->
  nth (a * (ow * kw) + b) (upsample d oh ow kh kw l) d = nth (a / kh * ow + b / kw) l d.
Proof.
  intros Ha Hb. unfold upsample. rewrite blocks_nth by (try assumption; intros k; now rewrite map_length, seq_length).
  rewrite nth_indep with (d' := (fun w => nth (a / kh * ow + w / kw) l d) 0%nat) by now rewrite map_length, seq_length.
  rewrite map_nth with (f := fun w => nth (a / kh * ow + w / kw) l d). now rewrite seq_nth by assumption.
Qed.

Definition extract (p : prog nat) (i : nat) : R := match p with Choose _ w _ => w i | _ => 0 end.

Lemma nat_div_cases n k : (1 <= k)%nat -> (n mod k = 0)%nat -> (n = 0 \/ k <= n)%nat.
Proof. intros Hk Hm. destruct (Nat.lt_ge_cases n k) as [H|H]; [left|right; exact H]. rewrite Nat.mod_small in Hm; lia. Qed.

Lemma conv_logits_mod c K lg f i o r : (1 <= K)%nat -> (side c mod K = 0)%nat -> (f < side c * side c)%nat ->
  conv_logits c K lg f i o r = lg o i ((f / side c) mod K)%nat ((f mod side c) mod K)%nat r.
Proof.
  intros HK Hm Hf. unfold conv_logits, kpos. destruct (nat_div_cases _ _ HK Hm) as [E|E]; [nia|].
  destruct (Nat.ltb_spec (side c) K); [lia|reflexivity].
Qed.

Lemma nodes_bidx0 a : bidx a 0 = 0%nat.
Proof. unfold bidx. now destruct (Nat.eqb a 1). Qed.

Section Sampler.
Variables (D : nat -> domain) (W : nat) (ev : option row) (e : row).
Variables (h : nat -> R -> R) (I : leaf -> nat -> nat -> nat -> R).
Hypothesis hpos : forall v a, 0 <= h v a.

Lemma sumconv_square c co K rr lg s : vwf c -> vll_shape (VSumConv c co K rr lg) = Ok s -> (side c * side c = features (vshape c))%nat.
Proof.
  intros Wc H. cbn [vll_shape] in H. destruct (vll_shape c) as [t|] eqn:Ec; cbn [bind] in H; [|discriminate].
  destruct (vll_shape_spec c t Wc Ec) as (E1 & E2 & E3). rewrite E1 in H.
  destruct (_ && _)%bool in H; [discriminate|]. destruct (_ && _)%bool in H; [discriminate|].
  destruct (Nat.eqb_spec (Nat.sqrt (features (vshape c)) * Nat.sqrt (features (vshape c))) (features (vshape c))) as [E|E]; [exact E|].
  cbn [negb] in H. discriminate.
Qed.

Lemma mixture_spec (v ch : cv) (co rr : nat) (L : nat -> nat -> nat -> R) :
  let n := channels (vshape ch) in
  vwf ch -> features (vshape v) = features (vshape ch) -> channels (vshape v) = co -> (1 <= co)%nat ->
  vreps_fine ch -> (0 < rr)%nat -> (forall f, vnthq v f = vnthq ch f) ->
  (forall s f c, (f < features (vshape v))%nat -> vpev s v f c 0 = bsum n (fun i => softmax n (L f c) i * vpev s ch f i 0)) ->
  (ev = Some e -> forall f c, (f < features (vshape v))%nat -> (c < channels (vshape v))%nat -> VQ1 e v f c <> 0) ->
  (ev = Some e \/ ev = None /\ forall u, In u (query (scope_of (vbase ch))) -> e u = None) ->
  (forall t x, vtfull v t -> vsample false W ev v t x =
     pbind (choose_channels (fun f c => mix_pick false n co rr (vll_reps ch) c 0 (L f c)
        (option_map (fun e0 i => vloglik ch e0 f i 0) ev)) 0 (c_ci t))
       (fun ns => vsample false W ev ch (mkCtx ns (c_mask t) 0) x)) ->
  vsspec D W ev e h I ch -> vsspec D W ev e h I v.
Proof.
  intros n Wc EF EC Hco Rc Hrr EN EV Pos Ev EQ IH.
  pose proof (v_cpos ch (vwf_vwf1 ch Wc)) as Cp. fold n in Cp.
  assert (ev = None -> forall f i, (f < features (vshape ch))%nat -> (i < n)%nat -> VQ1 e ch f i = 1) as Q1n.
  { intros E f i Hf Hi. destruct Ev as [E'|[_ H]]; [congruence|]. apply (vevok_Q1 ev e ch Wc Rc E); auto. right. auto. }
  assert (forall f c, (f < features (vshape v))%nat -> VQ1 e v f c = bsum n (fun i => softmax n (L f c) i * VQ1 e ch f i)) as E1.
  { intros f c Hf. unfold VQ1. rewrite vprob_pev. apply EV. exact Hf. }
  assert (forall f c, (f < features (vshape v))%nat -> (c < channels (vshape v))%nat -> VQ1 e v f c <> 0) as Nz.
  { intros f c Hf Hc. destruct Ev as [E|[E H]]; [now apply Pos|]. rewrite E1 by exact Hf.
    rewrite (bsum_ext n _ (softmax n (L f c))); [rewrite softmax_sum; [lra|exact Cp]|]. intros i Hi. rewrite Q1n; auto; [ring|congruence]. }
  set (pick := fun f c => mix_pick false n co rr (vll_reps ch) c 0 (L f c) (option_map (fun e0 i => vloglik ch e0 f i 0) ev)).
  assert (forall f c, (f < features (vshape v))%nat -> (c < channels (vshape v))%nat ->
     pick f c = Choose n (extract (pick f c)) (fun i => Ret i) /\
     forall i, (i < n)%nat -> extract (pick f c) i = softmax n (L f c) i * VQ1 e ch f i / VQ1 e v f c) as HP.
  { intros f c Hf Hc. destruct (mix_pick_eq ev e v ch co rr (vll_reps ch) c (L f c) f Cp ltac:(congruence) Hrr (proj2 Rc) (E1 f c Hf) (Nz f c Hf Hc)) as (sp & Hsp & Hv).
    - destruct Ev as [E|[E H]]; [now left|right]. split; [exact E|]. intros i Hi. apply Q1n; auto. congruence.
    - fold n in Hsp. fold (pick f c) in Hsp. split; [rewrite Hsp; reflexivity|]. rewrite Hsp. exact Hv. }
  exact (mix_node_spec D W ev e h I v ch (fun f c i => softmax n (L f c) i) pick (fun f c => extract (pick f c))
    Wc (eq_sym EF) Rc EN Nz E1 (fun f c Hf => EV (sc_h e I) f c Hf) (fun f c Hf Hc => proj1 (HP f c Hf Hc))
    (fun f c i Hf Hc => proj2 (HP f c Hf Hc) i) EQ IH).
Qed.

Lemma vsample_spec v : vwf v -> exact_fit v -> vleaf_int D h I v -> vcols_fine W v -> vreps_fine v -> vevok ev e v ->
  vsspec D W ev e h I v.
Proof.
  induction v as [m|c IH co rr lg|c IH|c IH co K rr lg|c IH kh kw ph pw]; intros Wv X HI HC Rf Ev.
  - destruct Wv as [Wm Am].
    assert (sspec D W ev e h I m) as S.
    { apply sample_spec; auto. }
    intros t Tf HQ. exact (S t Tf HQ).
  - pose proof Wv as [Wc Hco]. pose proof Rf as [(s & Hs) Hr].
    pose proof (vrr_pos_sum c co rr lg s Wc Hs Hr) as Hrr.
    pose proof (vreps_child (VSum c co rr lg) c Wv Rf eq_refl) as Rc.
    pose proof (vevok_child ev e (VSum c co rr lg) c Ev eq_refl) as Ec.
    pose proof (v_cpos c (vwf_vwf1 c Wc)) as Cp.
    apply (mixture_spec (VSum c co rr lg) c co rr (fun f o i => lg f i o 0%nat)); auto.
    + intros s0 f o Hf. rewrite vpev_sum by exact Cp. rewrite !nodes_bidx0. reflexivity.
    + intros E f o Hf Ho. destruct Ev as [[_ [_ H]]|[E' _]]; [now apply H|congruence].
    + destruct Ev as [[E _]|[E H]]; [now left|right]. split; [exact E|exact H].
    + intros t x (L1 & L2 & L3 & L4). cbn [vsample]. cbn [vshape features channels] in L1, L2, L4.
      rewrite validate_full; auto; [|right; left; congruence|congruence|rewrite L1; exact L4].
      rewrite bcast_full by exact L1. rewrite L3. reflexivity.
  - pose proof (vreps_child (VProduct c) c Wv Rf eq_refl) as Rc.
    pose proof (vevok_child ev e (VProduct c) c Ev eq_refl) as Ec. cbn in Wv.
    pose proof (vwf_vwf1 c Wv) as W1. pose proof (v_cpos c W1) as Cp. pose proof (vfpos c Wv X) as Fp.
    pose proof (vreps_pos c Wv Rc) as Rp.
    apply (prod_node_spec D W ev e h I (VProduct c) c (fun _ => seq 0 (features (vshape c)))); auto.
    + intros f _. apply seq_NoDup.
    + intros f g _ Hg. apply in_seq in Hg. lia.
    + intros f f' g Hf Hf' _ _. cbn in Hf, Hf'. lia.
    + intros g Hg. exists 0%nat. split; [cbn; lia|apply in_seq; lia].
    + intros f Hf. apply vnthq_product; [apply W1|exact Hf].
    + intros s0 f o r. apply vpev_product.
    + intros t (L1 & L2 & L3 & L4). cbn [vshape features channels] in L1, L2, L4. destruct t as [ci mk r]. cbn [c_ci c_mask c_rep] in *. subst r.
      destruct ci as [|c0 [|? ?]]; try discriminate. destruct mk as [|m0 [|? ?]]; try discriminate.
      exists (mkCtx (repeat c0 (features (vshape c))) (repeat m0 (features (vshape c))) 0).
      specialize (L4 0%nat ltac:(lia)). cbn [nth] in L4. split; [|split].
      * unfold vtfull. cbn [c_ci c_mask c_rep]. rewrite !repeat_length. repeat split. intros f Hf. now rewrite nth_repeat_lt.
      * intros f g Hf Hg. cbn in Hf. assert (f = 0%nat) as -> by lia. apply in_seq in Hg. cbn [c_ci c_mask nth].
        rewrite !nth_repeat_lt by lia. auto.
      * intros x. cbn [vsample]. rewrite validate_full; auto.
        -- rewrite broadcast_one by exact Fp. reflexivity.
        -- now left.
        -- cbn. intros f Hf. assert (f = 0%nat) as -> by lia. exact L4.
  - pose proof Wv as (Wc & Hco & HK). destruct X as [X Xm]. pose proof Rf as [(s & Hs) Hr].
    pose proof (vrr_pos_sumconv c co K rr lg s Wc Hs Hr) as Hrr. pose proof (sumconv_square c co K rr lg s Wc Hs) as Sq.
    pose proof (vreps_child (VSumConv c co K rr lg) c Wv Rf eq_refl) as Rc.
    pose proof (vevok_child ev e (VSumConv c co K rr lg) c Ev eq_refl) as Ec.
    pose proof (v_cpos c (vwf_vwf1 c Wc)) as Cp.
    apply (mixture_spec (VSumConv c co K rr lg) c co rr (fun f o i => lg o i ((f / side c) mod K)%nat ((f mod side c) mod K)%nat 0%nat)); auto.
    + intros s0 f o Hf. rewrite vpev_sumconv by exact Cp. rewrite !nodes_bidx0. apply bsum_ext. intros i Hi. f_equal. f_equal.
      apply functional_extensionality. intros j. apply conv_logits_mod; auto. rewrite Sq. exact Hf.
    + intros E f o Hf Ho. destruct Ev as [[_ [_ H]]|[E' _]]; [now apply H|congruence].
    + destruct Ev as [[E _]|[E H]]; [now left|right]. split; [exact E|exact H].
    + intros t x (L1 & L2 & L3 & L4). cbn [vsample]. cbn [vshape features channels] in L1, L2, L4.
      rewrite Sq, Nat.eqb_refl. cbn [negb]. rewrite Xm. cbn [Nat.eqb negb].
      rewrite validate_full; auto; [|right; left; congruence|congruence|rewrite L1; exact L4].
      rewrite bcast_full by exact L1. rewrite L3. reflexivity.
  - pose proof (vreps_child (VProdConv c kh kw ph pw) c Wv Rf eq_refl) as Rc.
    pose proof (vevok_child ev e (VProdConv c kh kw ph pw) c Ev eq_refl) as Ec.
    pose proof (exact_covered _ Wv X) as Cov. pose proof (vfpos _ Wv X) as Fo.
    destruct Wv as (Wc & Hh & Hw & Sq). destruct X as (X & -> & -> & M1 & M2). destruct Cov as (_ & C1 & C2).
    pose proof (vwf_vwf1 c Wc) as W1. pose proof (v_cpos c W1) as Cp. pose proof (vfpos c Wc X) as Fp.
    pose proof (vreps_pos c Wc Rc) as Rp. pose proof (conv_out_div _ _ Hh M1) as D1. pose proof (conv_out_div _ _ Hw M2) as D2.
    set (n := side c) in *. set (oh := conv_out n kh 0) in *. set (ow := conv_out n kw 0) in *.
    assert (features (vshape (VProdConv c kh kw 0 0)) = oh * ow)%nat as EO by reflexivity.
    apply (prod_node_spec D W ev e h I (VProdConv c kh kw 0 0) c (window n kh kw 0 0)); auto.
    + intros f _. now apply window_NoDup.
    + intros f g _ Hg. apply window_In in Hg; auto. rewrite <- Sq. tauto.
    + intros f f' g Hf Hf' Hg Hg'. apply (window_disj n kh kw 0 0 f f' g Hh Hw Hf Hf' Hg Hg').
    + intros g Hg. rewrite <- Sq in Hg. destruct (window_cover n kh kw 0 0 g Hh Hw C1 C2 Hg) as (f & Hf & Hin). eauto.
    + intros f Hf. now apply vnthq_prodconv.
    + intros s0 f o r. apply vpev_prodconv.
    + intros t (L1 & L2 & L3 & L4). rewrite EO in L1, L2, L4. cbn [vshape channels] in L4.
      assert (forall ci mk, length ci = (n * n)%nat -> length mk = (n * n)%nat ->
        (forall f g, (f < oh * ow)%nat -> In g (window n kh kw 0 0 f) -> nth g ci 0%nat = nth f (c_ci t) 0%nat /\ nth g mk false = nth f (c_mask t) false) ->
        vtfull c (mkCtx ci mk 0)) as TF.
      { intros ci mk Lc Lm Hn. unfold vtfull. cbn [c_ci c_mask c_rep]. rewrite <- Sq. repeat split; auto. intros g Hg.
        destruct (window_cover n kh kw 0 0 g Hh Hw C1 C2 Hg) as (f & Hf & Hin). destruct (Hn f g Hf Hin) as [-> _]. now apply L4. }
      assert (forall t1, prod_route n (features (vshape c)) (features (vshape (VProdConv c kh kw 0 0))) 0 0 kh kw oh ow
                 (channels (vshape c)) (repetitions (vshape c)) t = Ok t1 ->
              forall x, vsample false W ev (VProdConv c kh kw 0 0) t x = vsample false W ev c t1 x) as VS.
      { intros t1 E x. cbn [vsample]. fold n. fold oh. fold ow. rewrite E. reflexivity. }
      unfold prod_route in VS. rewrite EO in VS. rewrite validate_full in VS; auto;
        [|right; left; congruence|congruence|rewrite L1; exact L4]. cbn [negb] in VS.
      assert ((if Nat.eqb (length (c_ci t)) 1 then broadcast (oh * ow) t else Ok t) = Ok t) as EB.
      { rewrite bcast_full by exact L1. now destruct (Nat.eqb _ _). }
      rewrite EB in VS. cbn [bind] in VS. rewrite L1, Nat.eqb_refl in VS. rewrite !upsample_len in VS. rewrite <- Sq in VS.
      assert (oh * kh * (ow * kw) = n * n)%nat as EL by nia.
      destruct (Nat.eqb_spec (oh * ow) (n * n)) as [Ee|Ne].
      * (* kernel 1: nothing to upsample *)
        exists t. assert (kh = 1 /\ kw = 1)%nat as [E1 E2] by nia. subst kh kw.
        assert (forall f g, (f < oh * ow)%nat -> In g (window n 1 1 0 0 f) -> g = f) as WG.
        { intros f g Hf Hg. apply window_In in Hg; auto. destruct Hg as (Hg & A1 & A2).
          fold ow in A1, A2. rewrite !Nat.div_1_r, !Nat.add_0_r in *. destruct (dec_lt ow oh f Hf) as (_ & _ & ->).
          destruct (dec_lt n n g Hg) as (_ & _ & ->). rewrite A1, A2. nia. }
        split; [|split].
        -- destruct t as [ci mk r]. cbn [c_ci c_mask c_rep] in *. subst r. apply TF; [congruence|congruence|].
           intros f g Hf Hg. rewrite (WG f g Hf Hg). auto.
        -- intros f g Hf Hg. rewrite (WG f g Hf Hg). auto.
        -- apply VS. reflexivity.
      * set (ci := upsample 0%nat oh ow kh kw (c_ci t)) in *. set (mk := upsample false oh ow kh kw (c_mask t)) in *.
        exists (mkCtx ci mk 0).
        assert (forall f g, (f < oh * ow)%nat -> In g (window n kh kw 0 0 f) -> nth g ci 0%nat = nth f (c_ci t) 0%nat /\ nth g mk false = nth f (c_mask t) false) as HN.
        { intros f g Hf Hg. apply window_In in Hg; auto. destruct Hg as (Hg & A1 & A2). fold ow in A1, A2. rewrite !Nat.add_0_r in *.
          destruct (dec_lt n n g Hg) as (G1 & G2 & G3). destruct (dec_lt ow oh f Hf) as (_ & _ & F3).
          assert (g = g / n * (ow * kw) + g mod n)%nat as EG by (rewrite G3 at 1; nia).
          unfold ci, mk. rewrite EG. rewrite !upsample_nth by nia. rewrite A1, A2, <- F3. auto. }
        split; [|split].
        -- apply TF; auto; unfold ci, mk; rewrite upsample_len; exact EL.
        -- exact HN.
        -- apply VS. rewrite EL, Nat.ltb_irrefl, L3. reflexivity.
Qed.
End Sampler.
