(** Characterisation of the convolutional circuits: windows, shapes, recursion
    equations in the probability domain, an induction principle. *)
From Coq Require Import List Arith Bool Lia Lra Permutation Sorted.
From Verif Require Import Base ScopeModel ScopeProofs CircuitModel CircuitBasics CircuitEval Integral CircuitMarg SampleModel SampleSpec SampleExp ConvModel ConvSpec.
Import ListNotations.
Local Open Scope R_scope.

Definition vnthq (v : cv) (f : nat) : list nat := nth f (vfts v) [].
Definition vpev s v f c r : R := pr (veval s v f c r).

(** conditions the constructors enforce, plus alignment of the base circuit *)
Fixpoint vwf (v : cv) : Prop :=
  match v with
  | VMod m => wf m /\ aligned m
  | VSum c co _ _ => vwf c /\ (1 <= co)%nat
  | VProduct c => vwf c
  | VSumConv c co K _ _ => vwf c /\ (1 <= co)%nat /\ (1 <= K)%nat
  | VProdConv c kh kw _ _ => vwf c /\ (1 <= kh)%nat /\ (1 <= kw)%nat /\ (side c * side c = features (vshape c))%nat
  end.

(** ** Windows *)
Lemma win1_In n k p o a : (1 <= k)%nat -> In a (win1 n k p o) <-> (a < n)%nat /\ ((a + p) / k = o)%nat.
Proof.
  intros Hk. unfold win1. rewrite in_seq.
  assert (((a + p) / k = o)%nat <-> (o * k <= a + p /\ a + p < o * k + k)%nat) as ->.
  { split.
    - intros <-. pose proof (Nat.div_mod (a + p) k ltac:(lia)) as E. pose proof (Nat.mod_upper_bound (a + p) k ltac:(lia)). nia.
    - intros [H1 H2]. symmetry. apply Nat.div_unique with (r := (a + p - o * k)%nat); lia. }
  lia.
Qed.

Lemma win1_NoDup n k p o : NoDup (win1 n k p o).
Proof. apply seq_NoDup. Qed.

Lemma div_mod_enc n a b : (b < n)%nat -> ((a * n + b) / n = a /\ (a * n + b) mod n = b)%nat.
Proof.
  intros H. split.
  - symmetry. apply Nat.div_unique with (r := b); lia.
  - symmetry. apply Nat.mod_unique with (q := a); lia.
Qed.

Lemma enc_lt n m a b : (a < m)%nat -> (b < n)%nat -> (a * n + b < m * n)%nat.
Proof. nia. Qed.

Lemma dec_lt n m g : (g < m * n)%nat -> (g / n < m /\ g mod n < n /\ g = g / n * n + g mod n)%nat.
Proof.
  intros H. assert (n <> 0)%nat by (intros ->; lia).
  pose proof (Nat.div_mod g n ltac:(lia)). pose proof (Nat.mod_upper_bound g n ltac:(lia)).
  repeat split; try lia. apply Nat.div_lt_upper_bound; lia.
Qed.

Lemma window_In n kh kw ph pw f g : (1 <= kh)%nat -> (1 <= kw)%nat ->
  In g (window n kh kw ph pw f) <->
  (g < n * n)%nat /\ ((g / n + ph) / kh = f / conv_out n kw pw)%nat /\ ((g mod n + pw) / kw = f mod conv_out n kw pw)%nat.
Proof.
  intros Hh Hw. unfold window. rewrite in_flat_map. split.
  - intros (a & Ha & Hg). apply in_map_iff in Hg. destruct Hg as (b & <- & Hb).
    apply win1_In in Ha; [|exact Hh]. apply win1_In in Hb; [|exact Hw]. destruct Ha as [Ha1 Ha2], Hb as [Hb1 Hb2].
    destruct (div_mod_enc n a b Hb1) as [-> ->]. split; [now apply enc_lt|auto].
  - intros (Hg & H1 & H2). destruct (dec_lt n n g Hg) as (A & B & C). exists (g / n)%nat. split; [now apply win1_In|].
    apply in_map_iff. exists (g mod n)%nat. split; [symmetry; exact C|now apply win1_In].
Qed.

Lemma flat_map_NoDup {A B} (l : list A) (h : A -> list B) : NoDup l -> (forall a, In a l -> NoDup (h a)) ->
  (forall a a' b, In a l -> In a' l -> In b (h a) -> In b (h a') -> a = a') -> NoDup (flat_map h l).
Proof.
  induction l as [|a l IH]; intros ND H1 H2; cbn [flat_map]; [constructor|].
  inversion ND as [|? ? Ha ND']; subst.
  assert (NoDup (flat_map h l)) as N2 by (apply IH; [assumption|intros; apply H1; now right|intros a0 a' b X Y; apply H2; now right]).
  assert (forall b, In b (h a) -> ~ In b (flat_map h l)) as Dj.
  { intros b Hb C. apply in_flat_map in C. destruct C as (a' & Ha' & Hb'). apply Ha.
    rewrite (H2 a a' b); auto; [now left|now right]. }
  specialize (H1 a (or_introl eq_refl)). revert H1 Dj. generalize (h a). intros l0. induction l0 as [|b l0 IH0]; intros N1 Dj; [exact N2|].
  inversion N1; subst. cbn. constructor.
  - rewrite in_app_iff. intros [C|C]; [contradiction|]. apply (Dj b); [now left|exact C].
  - apply IH0; [assumption|]. intros b' Hb'. apply Dj. now right.
Qed.

Lemma window_NoDup n kh kw ph pw f : (1 <= kh)%nat -> (1 <= kw)%nat -> NoDup (window n kh kw ph pw f).
Proof.
  intros Hh Hw. unfold window. apply flat_map_NoDup.
  - apply win1_NoDup.
  - intros a _. apply FinFun.Injective_map_NoDup; [|apply win1_NoDup]. intros x y E. lia.
  - intros a a' b Ha Ha' Hb Hb'. apply in_map_iff in Hb, Hb'. destruct Hb as (x & <- & Hx), Hb' as (y & E & Hy).
    apply win1_In in Hx, Hy; try exact Hw. destruct (div_mod_enc n a x ltac:(tauto)) as [D _].
    destruct (div_mod_enc n a' y ltac:(tauto)) as [D' _]. congruence.
Qed.

Lemma window_disj n kh kw ph pw f g u : (1 <= kh)%nat -> (1 <= kw)%nat ->
  (f < conv_out n kh ph * conv_out n kw pw)%nat -> (g < conv_out n kh ph * conv_out n kw pw)%nat ->
  In u (window n kh kw ph pw f) -> In u (window n kh kw ph pw g) -> f = g.
Proof.
  intros Hh Hw Hf Hg. rewrite !window_In by assumption. intros (_ & A1 & B1) (_ & A2 & B2).
  destruct (dec_lt _ _ _ Hf) as (_ & _ & ->). destruct (dec_lt _ _ _ Hg) as (_ & _ & ->). congruence.
Qed.

(** ** Products over windows *)
Lemma lprod_map {A B} (h : A -> B) l g : lprod (map h l) g = lprod l (fun a => g (h a)).
Proof. induction l as [|a l IH]; cbn; [reflexivity|]. now rewrite IH. Qed.

Lemma lprod_flat_map {A B} (h : A -> list B) l g : lprod (flat_map h l) g = lprod l (fun a => lprod (h a) g).
Proof. induction l as [|a l IH]; cbn; [reflexivity|]. now rewrite lprod_app, IH. Qed.

Lemma bprod_lprod n g : bprod n g = lprod (seq 0 n) g.
Proof.
  induction n as [|n IH]; [reflexivity|]. rewrite seq_S, lprod_app. cbn [bprod lprod plus]. rewrite IH. ring.
Qed.

Lemma bprod_win t k n p (g : nat -> R) :
  bprod k (fun a => if (Nat.leb p (t + a) && Nat.ltb (t + a) (n + p))%bool then g (t + a - p)%nat else 1)
  = lprod (seq (t - p) (Nat.min n (t + k - p) - (t - p))) g.
Proof.
  induction k as [|k IH].
  - replace (Nat.min n (t + 0 - p) - (t - p))%nat with 0%nat by lia. reflexivity.
  - cbn [bprod]. rewrite IH.
    destruct (Nat.leb_spec p (t + k)) as [H1|H1]; [destruct (Nat.ltb_spec (t + k) (n + p)) as [H2|H2]|]; cbn [andb].
    + replace (Nat.min n (t + S k - p) - (t - p))%nat with (S (Nat.min n (t + k - p) - (t - p))) by lia.
      rewrite seq_S, lprod_app. cbn [lprod]. replace (t - p + (Nat.min n (t + k - p) - (t - p)))%nat with (t + k - p)%nat by lia. ring.
    + replace (Nat.min n (t + S k - p)) with (Nat.min n (t + k - p)) by lia. ring.
    + replace (Nat.min n (t + S k - p) - (t - p))%nat with (Nat.min n (t + k - p) - (t - p))%nat by lia. ring.
Qed.

Lemma vpev_prodconv s ch kh kw ph pw f c r :
  vpev s (VProdConv ch kh kw ph pw) f c r = lprod (window (side ch) kh kw ph pw f) (fun g => vpev s ch g c r).
Proof.
  unfold vpev. cbn [veval]. rewrite pr_ladds. set (n := side ch). set (ow := conv_out n kw pw).
  unfold window. fold ow. rewrite lprod_flat_map. unfold win1 at 1.
  rewrite <- bprod_win with (g := fun a => lprod (map (fun iw => (a * n + iw)%nat) (win1 n kw pw (f mod ow))) (fun g => pr (veval s ch g c r))).
  apply bprod_ext. intros a _. rewrite pr_ladds, lprod_map. unfold win1.
  rewrite <- bprod_win with (g := fun b => pr (veval s ch ((f / ow * kh + a - ph) * n + b) c r)).
  destruct (Nat.leb ph (f / ow * kh + a) && Nat.ltb (f / ow * kh + a) (n + ph))%bool eqn:E.
  - apply bprod_ext. intros b _. unfold padded. rewrite E. cbn [andb].
    destruct (Nat.leb pw (f mod ow * kw + b) && Nat.ltb (f mod ow * kw + b) (n + pw))%bool; [reflexivity|apply pr_Fin0].
  - apply bprod_one. intros b _. unfold padded. rewrite E. cbn [andb]. apply pr_Fin0.
Qed.

Lemma vpev_product s ch f c r : vpev s (VProduct ch) f c r = lprod (seq 0 (features (vshape ch))) (fun g => vpev s ch g c r).
Proof. unfold vpev. cbn [veval]. rewrite pr_ladds. apply bprod_lprod. Qed.

Lemma vpev_sum s ch co rr lg f c r : (0 < channels (vshape ch))%nat ->
  vpev s (VSum ch co rr lg) f c r = bsum (channels (vshape ch)) (fun ci =>
    softmax (channels (vshape ch)) (fun i => lg f i c (bidx rr r)) ci * vpev s ch f ci (bidx (vll_reps ch) r)).
Proof.
  intros Hn. unfold vpev. cbn [veval]. rewrite pr_lse. apply bsum_ext. intros ci Hci.
  rewrite pr_ladd. cbn [pr]. rewrite exp_log_softmax by assumption. ring.
Qed.

Lemma vpev_sumconv s ch co K rr lg f c r : (0 < channels (vshape ch))%nat ->
  vpev s (VSumConv ch co K rr lg) f c r = bsum (channels (vshape ch)) (fun ci =>
    softmax (channels (vshape ch)) (fun i => conv_logits ch K lg f i c (bidx rr r)) ci * vpev s ch f ci (bidx (vll_reps ch) r)).
Proof.
  intros Hn. unfold vpev. cbn [veval]. rewrite pr_lse. apply bsum_ext. intros ci Hci.
  rewrite pr_ladd. cbn [pr]. rewrite exp_log_softmax by assumption. ring.
Qed.

Lemma vpev_nonneg s v f c r : 0 <= vpev s v f c r.
Proof. apply pr_nonneg. Qed.

(** ** Structure *)
Record vwf1 (v : cv) : Prop := {
  v_len : length (vfts v) = features (vshape v);
  v_disj : forall f g, (f < features (vshape v))%nat -> (g < features (vshape v))%nat -> f <> g -> disjl (vnthq v f) (vnthq v g);
  v_sorted : forall f, (f < features (vshape v))%nat -> StronglySorted lt (vnthq v f);
  v_cpos : (0 < channels (vshape v))%nat }.

Lemma vnthq_prodconv ch kh kw ph pw f : (f < features (vshape (VProdConv ch kh kw ph pw)))%nat ->
  vnthq (VProdConv ch kh kw ph pw) f = pjoin (map (vnthq ch) (window (side ch) kh kw ph pw f)).
Proof.
  intros Hf. unfold vnthq at 1. cbn [vfts].
  set (h := fun f => pjoin (map (fun g => nth g (vfts ch) []) (window (side ch) kh kw ph pw f))).
  rewrite nth_indep with (d' := h 0%nat) by (rewrite map_length, seq_length; exact Hf).
  rewrite map_nth, seq_nth by exact Hf. reflexivity.
Qed.

Lemma map_nth_seq {A} (l : list A) d : map (fun i => nth i l d) (seq 0 (length l)) = l.
Proof.
  induction l as [|a l IH]; [reflexivity|]. cbn [length seq map nth]. f_equal.
  rewrite <- seq_shift, map_map. exact IH.
Qed.

Lemma vnthq_product ch f : length (vfts ch) = features (vshape ch) -> (f < 1)%nat ->
  vnthq (VProduct ch) f = pjoin (map (vnthq ch) (seq 0 (features (vshape ch)))).
Proof.
  intros L Hf. assert (f = 0%nat) as -> by lia. unfold vnthq. cbn [vfts nth]. now rewrite <- L, map_nth_seq.
Qed.

Lemma vwf_vwf1 v : vwf v -> vwf1 v.
Proof.
  induction v as [m|c IH co rr lg|c IH|c IH co K rr lg|c IH kh kw ph pw]; intros W.
  - destruct W as [W _]. pose proof (wf_wf1 m W) as [_ L _ Dj S _ C _]. constructor; assumption.
  - destruct W as [W Hco]. destruct (IH W) as [L Dj S C]. constructor; auto; cbn; lia.
  - specialize (IH W). constructor; cbn [vshape features channels].
    + reflexivity.
    + intros f g Hf Hg. lia.
    + intros f Hf. rewrite vnthq_product by (try apply IH; assumption). apply pjoin_sorted. apply Forall_forall.
      intros q Hq. apply in_map_iff in Hq. destruct Hq as (g & <- & Hg). apply in_seq in Hg. apply (v_sorted c IH). lia.
    + apply IH.
  - destruct W as (W & Hco & HK). destruct (IH W) as [L Dj S C]. constructor; auto; cbn; lia.
  - destruct W as (W & Hh & Hw & Sq). specialize (IH W). constructor.
    + cbn [vfts]. now rewrite map_length, seq_length.
    + intros f g Hf Hg Hn u. rewrite !vnthq_prodconv by assumption. rewrite !pjoin_In.
      intros (q & Hq & Hu) (q' & Hq' & Hu'). apply in_map_iff in Hq, Hq'. destruct Hq as (a & <- & Ha), Hq' as (b & <- & Hb).
      pose proof Ha as Ha0. pose proof Hb as Hb0. apply window_In in Ha0; auto. apply window_In in Hb0; auto. rewrite Sq in *.
      destruct (Nat.eq_dec a b) as [->|Nab]; [|apply (v_disj c IH a b ltac:(tauto) ltac:(tauto) Nab u Hu Hu')].
      apply Hn. eapply (window_disj (side c) kh kw ph pw f g b); eauto.
    + intros f Hf. rewrite vnthq_prodconv by assumption. apply pjoin_sorted. apply Forall_forall.
      intros q Hq. apply in_map_iff in Hq. destruct Hq as (g & <- & Hg). apply window_In in Hg; auto. apply (v_sorted c IH). lia.
    + apply IH.
Qed.

Lemma vll_shape_spec v s : vwf v -> vll_shape v = Ok s ->
  features s = features (vshape v) /\ channels s = channels (vshape v) /\ repetitions s = vll_reps v.
Proof.
  revert s. induction v as [m|c IH co rr lg|c IH|c IH co K rr lg|c IH kh kw ph pw]; intros s W H.
  - apply ll_shape_spec; [apply W|exact H].
  - destruct W as [W Hco]. cbn in H.
    destruct (vll_shape c) as [t|]; cbn in H; [|discriminate].
    destruct (IH t W eq_refl) as (E1 & E2 & E3). rewrite E1, E2, !bcast_same in H. cbn in H.
    rewrite E3 in H. unfold bcast in H. cbn.
    destruct (Nat.eqb_spec (vll_reps c) rr) as [E|E].
    + cbn in H. injection H as <-. cbn. repeat split; auto. rewrite E. now destruct (Nat.eqb_spec rr 1).
    + destruct (Nat.eqb_spec (vll_reps c) 1) as [E'|E'].
      * cbn in H. injection H as <-. auto.
      * destruct (Nat.eqb rr 1); [|discriminate]. cbn in H. injection H as <-. auto.
  - cbn in H. destruct (vll_shape c) as [t|]; cbn in H; [|discriminate].
    destruct (IH t W eq_refl) as (E1 & E2 & E3). injection H as <-. cbn. auto.
  - destruct W as (W & Hco & HK). cbn in H.
    destruct (vll_shape c) as [t|]; cbn in H; [|discriminate].
    destruct (IH t W eq_refl) as (E1 & E2 & E3).
    destruct (Nat.eqb (repetitions t) 1 && Nat.ltb 1 rr)%bool; [discriminate|].
    destruct (negb (Nat.eqb (repetitions t) rr) && negb (Nat.eqb (repetitions t) 1))%bool; [discriminate|].
    destruct (negb (Nat.eqb (Nat.sqrt (features t) * Nat.sqrt (features t)) (features t))); [discriminate|].
    destruct (negb (Nat.ltb (Nat.sqrt (features t)) K) && negb (Nat.eqb (Nat.sqrt (features t) mod K) 0))%bool; [discriminate|].
    rewrite E2, bcast_same in H. cbn in H. rewrite E3 in H. unfold bcast in H. cbn.
    destruct (Nat.eqb_spec (vll_reps c) rr) as [E|E].
    + cbn in H. injection H as <-. cbn. repeat split; auto. rewrite E. now destruct (Nat.eqb_spec rr 1).
    + destruct (Nat.eqb_spec (vll_reps c) 1) as [E'|E'].
      * cbn in H. injection H as <-. auto.
      * destruct (Nat.eqb rr 1); [|discriminate]. cbn in H. injection H as <-. auto.
  - destruct W as (W & _). cbn in H. destruct (vll_shape c) as [t|]; cbn in H; [|discriminate].
    destruct (IH t W eq_refl) as (E1 & E2 & E3).
    destruct (negb _); [discriminate|]. destruct (_ && _)%bool; [|discriminate]. injection H as <-. cbn. auto.
Qed.

Definition vpos (v : cv) f c r := (exists s, vll_shape v = Ok s) /\
  (f < features (vshape v))%nat /\ (c < channels (vshape v))%nat /\ (r < vll_reps v)%nat.

Lemma in_shape_vpos v s f c r : vwf v -> vll_shape v = Ok s -> in_shape s f c r -> vpos v f c r.
Proof.
  intros W H (A & B & C). destruct (vll_shape_spec v s W H) as (E1 & E2 & E3).
  split; [eauto|]. rewrite <- E1, <- E2, <- E3. auto.
Qed.

Lemma vll_child v s : vll_shape v = Ok s ->
  match v with VMod _ => True | VSum c _ _ _ | VProduct c | VSumConv c _ _ _ _ | VProdConv c _ _ _ _ => exists t, vll_shape c = Ok t end.
Proof. destruct v; cbn; auto; destruct (vll_shape v); eauto; discriminate. Qed.

Lemma reps_child a rr r : (r < (if Nat.eqb a 1 then rr else a))%nat -> (bidx a r < a)%nat.
Proof. intros H. apply bidx_lt; destruct (Nat.eqb_spec a 1); lia. Qed.

(** Induction over the defined output positions: base circuit, mixture, product. *)
Lemma vind (P : cv -> nat -> nat -> nat -> Prop) :
  (forall m f c r, wf m -> aligned m -> pos m f c r -> P (VMod m) f c r) ->
  (forall v ch w f c r r', vwf ch -> vleaves v = vleaves ch -> vnthq v f = vnthq ch f ->
     (0 < channels (vshape ch))%nat ->
     (forall s, vpev s v f c r = bsum (channels (vshape ch)) (fun i => w i * vpev s ch f i r')) ->
     (forall i, 0 < w i) -> bsum (channels (vshape ch)) w = 1 ->
     (forall i, (i < channels (vshape ch))%nat -> vpos ch f i r' /\ P ch f i r') -> P v f c r) ->
  (forall v ch ws f c r, vwf ch -> vleaves v = vleaves ch -> vnthq v f = pjoin (map (vnthq ch) ws) -> NoDup ws ->
     (forall s, vpev s v f c r = lprod ws (fun g => vpev s ch g c r)) ->
     (forall g, In g ws -> (g < features (vshape ch))%nat /\ vpos ch g c r /\ P ch g c r) -> P v f c r) ->
  forall v, vwf v -> forall f c r, vpos v f c r -> P v f c r.
Proof.
  intros HB HM HP v. induction v as [m|ch IH co rr lg|ch IH|ch IH co K rr lg|ch IH kh kw ph pw]; intros W f c r V;
    pose proof V as ((s & Hs) & Hf & Hc & Hr).
  - destruct W. apply HB; auto.
  - destruct W as [W Hco]. pose proof (v_cpos ch (vwf_vwf1 ch W)) as Cp. pose proof (vll_child _ _ Hs) as Ht.
    apply (HM _ ch (softmax (channels (vshape ch)) (fun i => lg f i c (bidx rr r))) f c r (bidx (vll_reps ch) r)); auto.
    + intros s0. now apply vpev_sum.
    + intros i. now apply softmax_pos.
    + now apply softmax_sum.
    + intros i Hi. cbn in Hf, Hr. assert (vpos ch f i (bidx (vll_reps ch) r)) as V1 by (repeat split; auto; eapply reps_child; eauto).
      split; [exact V1|now apply IH].
  - cbn in W. pose proof (vll_child _ _ Hs) as Ht. pose proof (vwf_vwf1 ch W) as W1.
    apply (HP _ ch (seq 0 (features (vshape ch)))); auto.
    + apply vnthq_product; [apply W1|exact Hf].
    + apply seq_NoDup.
    + intros s0. apply vpev_product.
    + intros g Hg. apply in_seq in Hg. cbn in Hc, Hr. assert (vpos ch g c r) as V1 by (repeat split; auto; lia).
      split; [lia|]. split; [exact V1|now apply IH].
  - destruct W as (W & Hco & HK). pose proof (v_cpos ch (vwf_vwf1 ch W)) as Cp. pose proof (vll_child _ _ Hs) as Ht.
    apply (HM _ ch (softmax (channels (vshape ch)) (fun i => conv_logits ch K lg f i c (bidx rr r))) f c r (bidx (vll_reps ch) r)); auto.
    + intros s0. now apply vpev_sumconv.
    + intros i. now apply softmax_pos.
    + now apply softmax_sum.
    + intros i Hi. cbn in Hf, Hr. assert (vpos ch f i (bidx (vll_reps ch) r)) as V1 by (repeat split; auto; eapply reps_child; eauto).
      split; [exact V1|now apply IH].
  - destruct W as (W & Hh & Hw & Sq). pose proof (vll_child _ _ Hs) as Ht.
    apply (HP _ ch (window (side ch) kh kw ph pw f)); auto.
    + now apply vnthq_prodconv.
    + now apply window_NoDup.
    + intros s0. apply vpev_prodconv.
    + intros g Hg. apply window_In in Hg; auto. rewrite Sq in Hg. cbn [vshape channels] in Hc. cbn [vll_reps] in Hr.
      assert (vpos ch g c r) as V1 by (repeat split; auto; tauto). split; [tauto|]. split; [exact V1|now apply IH].
Qed.

(** variables of a product node *)
Lemma prod_In (ch : cv) ws (u : nat) : In u (pjoin (map (vnthq ch) ws)) <-> exists g, In g ws /\ In u (vnthq ch g).
Proof.
  rewrite pjoin_In. split.
  - intros (q & Hq & Hu). apply in_map_iff in Hq. destruct Hq as (g & <- & Hg). eauto.
  - intros (g & Hg & Hu). exists (vnthq ch g). split; [now apply in_map|exact Hu].
Qed.

Lemma lprod_split {A} (l : list A) a g (dec : forall x y : A, {x = y} + {x <> y}) : NoDup l -> In a l ->
  lprod l g = g a * lprod l (fun x => if dec x a then 1 else g x).
Proof.
  induction l as [|b l IH]; intros ND Hin; [contradiction|]. inversion ND as [|? ? Hb ND']; subst. cbn [lprod].
  destruct (dec b a) as [->|Nb].
  - rewrite Rmult_1_l. f_equal. apply lprod_ext. intros x Hx. destruct (dec x a) as [->|]; [contradiction|reflexivity].
  - destruct Hin as [E|Hin]; [contradiction|]. rewrite IH by assumption. ring.
Qed.

Lemma lprod_one {A} (l : list A) g : (forall a, In a l -> g a = 1) -> lprod l g = 1.
Proof. induction l as [|a l IH]; cbn; intros H; [reflexivity|]. rewrite H, IH; [ring|auto|auto]. Qed.
Lemma lprod_zero {A} (l : list A) g a : In a l -> g a = 0 -> lprod l g = 0.
Proof. induction l as [|b l IH]; cbn; [tauto|]. intros [<-|H] E; [rewrite E; ring|]. rewrite IH by assumption. ring. Qed.
Lemma lprod_zero_ex {A} (l : list A) g : lprod l g = 0 -> exists a, In a l /\ g a = 0.
Proof.
  induction l as [|b l IH]; cbn; [lra|]. intros H. apply Rmult_integral in H. destruct H as [H|H]; [exists b; auto|].
  destruct (IH H) as (a & Ha & E). eauto.
Qed.
Lemma lprod_nonzero {A} (l : list A) g : (forall a, In a l -> g a <> 0) -> lprod l g <> 0.
Proof. intros H E. apply lprod_zero_ex in E. destruct E as (a & Ha & E). now apply (H a). Qed.
Lemma lprod_div {A} (l : list A) f g : (forall a, In a l -> g a <> 0) -> lprod l (fun a => f a / g a) = lprod l f / lprod l g.
Proof.
  induction l as [|a l IH]; intros H; cbn [lprod]; [field|].
  rewrite IH by (intros; apply H; now right). field. split; [|apply H; now left]. apply lprod_nonzero. intros; apply H; now right.
Qed.
Lemma lprod_mult {A} (l : list A) f g : lprod l (fun a => f a * g a) = lprod l f * lprod l g.
Proof. induction l as [|a l IH]; cbn; [ring|]. rewrite IH. ring. Qed.

(** ** Locality, multilinearity, missing values *)
Lemma vprob_pev v x f c r : vprob v x f c r = vpev (leaf_score x) v f c r.
Proof. reflexivity. Qed.

Lemma vpev_local s s' v : vwf v -> forall f c r, vpos v f c r ->
  (forall l g c r, In l (vleaves v) -> In (colv l g) (vnthq v f) -> s l g c r = s' l g c r) -> vpev s v f c r = vpev s' v f c r.
Proof.
  intros W f c r V. revert f c r V.
  apply (vind (fun v f c r => (forall l g c r, In l (vleaves v) -> In (colv l g) (vnthq v f) -> s l g c r = s' l g c r) ->
     vpev s v f c r = vpev s' v f c r)); auto.
  - intros m f c r Wm Am P H. apply (pev_local s s' m Wm Am f c r P H).
  - intros v0 ch w f c r r' W0 EL EN Cp E Hw1 Hw2 IH H. rewrite !E. apply bsum_ext. intros i Hi. f_equal.
    apply (IH i Hi). rewrite <- EL, <- EN. exact H.
  - intros v0 ch ws f c r W0 EL EN ND E IH H. rewrite !E. apply lprod_ext. intros g Hg. apply (IH g Hg).
    intros l g' c' r' Hl Hin. apply H; [now rewrite EL|]. rewrite EN. apply prod_In. eauto.
Qed.

Lemma vprob_local v : vwf v -> forall f c r, vpos v f c r ->
  forall x y, (forall u, In u (vnthq v f) -> x u = y u) -> vprob v x f c r = vprob v y f c r.
Proof.
  intros W f c r V x y H. rewrite !vprob_pev. apply vpev_local; auto. intros l g c' r' _ Hin. unfold leaf_score.
  change (nth g (query (l_scope l)) 0%nat) with (colv l g). now rewrite H.
Qed.

Lemma vlin1 D v (u : nat) (sa : R -> leaf -> nat -> nat -> nat -> lval) (s0 : leaf -> nat -> nat -> nat -> lval) :
  vwf v -> (forall l f c r a, colv l f <> u -> sa a l f c r = s0 l f c r) ->
  forall f c r, vpos v f c r ->
  (forall l f c r, In l (vleaves v) -> leaf_range l f c r -> colv l f = u ->
     sums (D u) (fun a => pr (sa a l f c r)) (pr (s0 l f c r))) ->
  In u (vnthq v f) -> sums (D u) (fun a => vpev (sa a) v f c r) (vpev s0 v f c r).
Proof.
  intros W Hoff f c r V. revert f c r V.
  apply (vind (fun v f c r =>
    (forall l f c r, In l (vleaves v) -> leaf_range l f c r -> colv l f = u ->
     sums (D u) (fun a => pr (sa a l f c r)) (pr (s0 l f c r))) ->
    In u (vnthq v f) -> sums (D u) (fun a => vpev (sa a) v f c r) (vpev s0 v f c r))); auto.
  - intros m f c r Wm Am P N Hu. apply (lin1 D m u sa s0 Wm Am Hoff f c r P N Hu).
  - intros v0 ch w f c r r' W0 EL EN Cp E Hw1 Hw2 IH N Hu. rewrite E. rewrite EL in N. rewrite EN in Hu.
    eapply sums_ext; [intros a; symmetry; apply E|].
    destruct (IH 0%nat Cp) as [_ IH0]. eapply sums_bsum; [exact (IH0 N Hu)|].
    intros i Hi. apply sums_scal. apply (IH i Hi); auto.
  - intros v0 ch ws f c r W0 EL EN ND E IH N Hu. rewrite EL in N. rewrite EN in Hu. apply prod_In in Hu.
    destruct Hu as (g & Hg & Hu). rewrite E. rewrite (lprod_split ws g _ Nat.eq_dec ND Hg).
    eapply sums_ext; [intros a; symmetry; rewrite E; apply (lprod_split ws g _ Nat.eq_dec ND Hg)|].
    destruct (IH g Hg) as (Fg & Vg & IHg). specialize (IHg N Hu).
    set (Z := lprod ws (fun x => if Nat.eq_dec x g then 1 else vpev s0 ch x c r)).
    rewrite Rmult_comm. eapply sums_ext; [|apply (sums_scal (D u) Z _ _ IHg)].
    intros a. cbn beta. rewrite Rmult_comm. f_equal. apply lprod_ext. intros i Hi.
    destruct (Nat.eq_dec i g) as [->|Hn]; [reflexivity|].
    destruct (IH i Hi) as (Fi & Vi & _). symmetry. apply (vpev_local _ _ ch W0 i c r Vi).
    intros l g' c' r' Hl Hin. apply Hoff. intros C. rewrite C in Hin.
    apply (v_disj ch (vwf_vwf1 ch W0) i g Fi Fg Hn _ Hin Hu).
Qed.

Lemma vmarg1 D v : vwf v -> vleaves_norm D v -> forall f c r, vpos v f c r -> forall x u, In u (vnthq v f) ->
  sums (D u) (fun a => vprob v (upd x u (Some a)) f c r) (vprob v (upd x u None) f c r).
Proof.
  intros W N f c r V x u Hu.
  apply (vlin1 D v u (fun a => leaf_score (upd x u (Some a))) (leaf_score (upd x u None))); auto.
  - intros l g c' r' a Hn. unfold leaf_score. unfold colv in Hn. now rewrite !upd_other.
  - intros l g c' r' Hl (L1 & L2 & L3) E. unfold leaf_score. unfold colv in E. rewrite E, upd_same, pr_Fin0.
    unfold vleaves_norm in N. rewrite Forall_forall in N. specialize (N l Hl g c' r' L1 L2 L3). rewrite E in N.
    eapply sums_ext; [|exact N]. intros a. cbn beta. now rewrite upd_same.
Qed.

Lemma vprob_all_nan v : vwf v -> forall f c r, vpos v f c r ->
  forall x, (forall u, In u (vnthq v f) -> x u = None) -> vprob v x f c r = 1.
Proof.
  intros W f c r V. revert f c r V.
  apply (vind (fun v f c r => forall x, (forall u, In u (vnthq v f) -> x u = None) -> vprob v x f c r = 1)); auto.
  - intros m f c r Wm Am P x H. apply (prob_all_nan m Wm Am f c r P x H).
  - intros v0 ch w f c r r' W0 EL EN Cp E Hw1 Hw2 IH x H. rewrite vprob_pev, E, <- Hw2. apply bsum_ext. intros i Hi.
    destruct (IH i Hi) as [_ IHi]. rewrite <- vprob_pev, IHi; [ring|]. now rewrite <- EN.
  - intros v0 ch ws f c r W0 EL EN ND E IH x H. rewrite vprob_pev, E. apply lprod_one. intros g Hg.
    destruct (IH g Hg) as (_ & _ & IHg). apply IHg. intros u Hu. apply H. rewrite EN. apply prod_In. eauto.
Qed.

Lemma vsums D v : vwf v -> vleaves_norm D v -> forall f c r, vpos v f c r ->
  forall vs x, NoDup vs -> incl vs (vnthq v f) ->
  sums_over D vs (fun y => vprob v y f c r) x (vprob v (set_nan vs x) f c r).
Proof.
  intros W N f c r V vs x ND HI.
  apply (sums_over_nan D (fun y => vprob v y f c r) (fun u => In u (vnthq v f))); auto.
  intros u y Hu. now apply vmarg1.
Qed.

Lemma vnorm D v : vwf v -> vleaves_norm D v -> forall f c r, vpos v f c r ->
  forall vs x, NoDup vs -> (forall u, In u vs <-> In u (vnthq v f)) -> sums_over D vs (fun y => vprob v y f c r) x 1.
Proof.
  intros W N f c r V vs x ND H. rewrite <- (vprob_all_nan v W f c r V (set_nan vs x)).
  - apply vsums; auto. intros u Hu. now apply H.
  - intros u Hu. apply set_nan_In. now apply H.
Qed.

Lemma mk_prodconv_ok c kh kw ph pw v : mk_prodconv c kh kw ph pw = Ok v <->
  v = VProdConv c kh kw ph pw /\ (1 <= kh)%nat /\ (1 <= kw)%nat /\ (side c * side c = features (vshape c))%nat.
Proof.
  unfold mk_prodconv. destruct (Nat.ltb_spec kh 1); [split; [discriminate|lia]|]. destruct (Nat.ltb_spec kw 1); [split; [discriminate|lia]|].
  destruct (Nat.eqb_spec (side c * side c) (features (vshape c))); split; try discriminate; try lia.
  - intros [= <-]. repeat split; auto.
  - intros (-> & _). reflexivity.
Qed.
Lemma mk_sumconv_ok c co K rr lg v : mk_sumconv c co K rr lg = Ok v <-> v = VSumConv c co K rr lg /\ (1 <= co)%nat /\ (1 <= K)%nat.
Proof.
  unfold mk_sumconv. destruct (Nat.ltb_spec co 1); [split; [discriminate|lia]|]. destruct (Nat.ltb_spec K 1); [split; [discriminate|lia]|].
  split; [intros [= <-]; auto|intros (-> & _); reflexivity].
Qed.
Lemma mk_vsum_ok c co rr lg v : mk_vsum c co rr lg = Ok v <-> v = VSum c co rr lg /\ (1 <= co)%nat.
Proof.
  unfold mk_vsum. destruct (Nat.ltb_spec co 1); [split; [discriminate|lia]|].
  split; [intros [= <-]; auto|intros (-> & _); reflexivity].
Qed.

Lemma vbuilt_vwf v : vbuilt v -> valigned v -> vwf v.
Proof.
  induction 1 as [m B|c co rr lg v B IH E|c v B IH E|c co K rr lg v B IH E|c kh kw ph pw v B IH E]; intros A.
  - split; [now apply built_wf|exact A].
  - apply mk_vsum_ok in E. destruct E as [-> H]. cbn. auto.
  - injection E as <-. cbn. auto.
  - apply mk_sumconv_ok in E. destruct E as (-> & H1 & H2). cbn. auto.
  - apply mk_prodconv_ok in E. destruct E as (-> & H1 & H2 & H3). cbn. auto.
Qed.
