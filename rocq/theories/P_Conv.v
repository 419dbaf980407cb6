(** C49, C50, C154-C163: convolutional modules *)
From Coq Require Import List Arith Bool Lia Lra Permutation Sorted FunctionalExtensionality.
From Verif Require Import Base ScopeModel ScopeProofs CircuitModel CircuitSpec CircuitBasics CircuitEval Integral CircuitMarg CircuitProps MargModel MargProofs CircuitExamples LeafTop SampleModel SampleSpec SampleExp SampleProofs SampleTop SampleApi ConvModel ConvSpec ConvProofs ConvSample ConvTop ConvApi ConvPcProofs.
Import ListNotations.
Local Open Scope R_scope.

(** ** C49: SumConv *)

(** the weights of every output channel, kernel position and repetition are positive
    and sum to one over the input channels *)
Theorem C49_weights : forall c lg o a b r, vbuilt c -> valigned c ->
  (forall i, 0 < conv_weights c lg o i a b r) /\ bsum (channels (vshape c)) (fun i => conv_weights c lg o i a b r) = 1.
Proof.
  intros c lg o a b r B A. pose proof (v_cpos c (vwf_vwf1 c (vbuilt_vwf c B A))) as Cp.
  split; [intros i; now apply softmax_pos|now apply softmax_sum].
Qed.

(** the pixel in row [h] and column [w] is a mixture over the input channels with the
    weights of kernel position (h mod K, w mod K) *)
Theorem C49_mixture : forall c co K rr lg v x s, vbuilt c -> valigned c -> mk_sumconv c co K rr lg = Ok v -> vll_shape v = Ok s ->
  (features s = side c * side c)%nat /\
  forall h w o r, (h < side c)%nat -> (w < side c)%nat ->
  vprob v x (h * side c + w) o r =
  bsum (channels (vshape c)) (fun i =>
    conv_weights c lg o i (if Nat.ltb (side c) K then 0 else h mod K)%nat (if Nat.ltb (side c) K then 0 else w mod K)%nat (bidx rr r)
    * vprob c x (h * side c + w) i (bidx (vll_reps c) r)).
Proof.
  intros c co K rr lg v x s B A E L. pose proof (vbuilt_vwf c B A) as Wc. apply mk_sumconv_ok in E. destruct E as (-> & Hco & HK).
  assert (vwf (VSumConv c co K rr lg)) as Wv by (cbn; auto).
  split.
  - destruct (vll_shape_spec _ _ Wv L) as (E1 & _). rewrite E1. symmetry. apply (sumconv_square c co K rr lg s Wc L).
  - intros h w o r Hh Hw. rewrite vprob_pev, vpev_sumconv by apply (v_cpos c (vwf_vwf1 c Wc)). apply bsum_ext. intros i Hi.
    unfold conv_weights, conv_logits, kpos. destruct (div_mod_enc (side c) h w Hw) as [-> ->]. reflexivity.
Qed.

(** assigning weights: the shape must match, entries be positive and columns sum to
    one; reading them back gives the assigned values *)
Theorem C49_set_weights : forall c co K rr wo wi wh ww wr w v,
  set_conv_weights c co K rr wo wi wh ww wr w = Ok v ->
  wo = co /\ wi = channels (vshape c) /\ wh = K /\ ww = K /\ wr = rr /\
  (forall o i a b r, (o < co)%nat -> (i < wi)%nat -> (a < K)%nat -> (b < K)%nat -> (r < rr)%nat -> 0 < w o i a b r) /\
  exists lg, v = VSumConv c co K rr lg /\
  forall o a b r, (o < co)%nat -> (a < K)%nat -> (b < K)%nat -> (r < rr)%nat -> forall i, (i < wi)%nat ->
    conv_weights c lg o i a b r = w o i a b r / bsum wi (fun j => w o j a b r).
Proof.
  intros c co K rr wo wi wh ww wr w v H. unfold set_conv_weights in H.
  destruct (negb (_ && _ && _ && _ && _)) eqn:E1; [discriminate|]. apply negb_false_iff in E1.
  apply andb_true_iff in E1. destruct E1 as [E1 A5]. apply andb_true_iff in E1. destruct E1 as [E1 A4].
  apply andb_true_iff in E1. destruct E1 as [E1 A3]. apply andb_true_iff in E1. destruct E1 as [A1 A2].
  apply Nat.eqb_eq in A1, A2, A3, A4, A5. subst wo wi wh ww wr.
  destruct (negb (allb co _)) eqn:E2 in H; [discriminate|]. apply negb_false_iff in E2.
  destruct (negb (allb co _)) eqn:E3 in H; [discriminate|].
  assert (forall o i a b r, (o < co)%nat -> (i < channels (vshape c))%nat -> (a < K)%nat -> (b < K)%nat -> (r < rr)%nat -> 0 < w o i a b r) as HP.
  { intros o i a b r Ho Hi Ha Hb Hr. rewrite allb_true in E2. specialize (E2 o Ho). rewrite allb_true in E2. specialize (E2 i Hi).
    rewrite allb_true in E2. specialize (E2 a Ha). rewrite allb_true in E2. specialize (E2 b Hb). rewrite allb_true in E2. specialize (E2 r Hr).
    unfold rlt in E2. destruct (Rlt_dec 0 (w o i a b r)); [assumption|discriminate]. }
  repeat split; auto. injection H as <-. eexists. split; [reflexivity|]. intros o a b r Ho Ha Hb Hr i Hi. unfold conv_weights, softmax.
  rewrite exp_ln by auto. f_equal. apply bsum_ext. intros j Hj. apply exp_ln. auto.
Qed.

Theorem C49_set_weights_accepts : forall c co K rr w,
  (forall o i a b r, (o < co)%nat -> (i < channels (vshape c))%nat -> (a < K)%nat -> (b < K)%nat -> (r < rr)%nat -> 0 < w o i a b r) ->
  (forall o a b r, (o < co)%nat -> (a < K)%nat -> (b < K)%nat -> (r < rr)%nat -> bsum (channels (vshape c)) (fun i => w o i a b r) = 1) ->
  exists v, set_conv_weights c co K rr co (channels (vshape c)) K K rr w = Ok v.
Proof.
  intros c co K rr w HP HS. unfold set_conv_weights. rewrite !Nat.eqb_refl. cbn [andb negb].
  assert (forall n p, (forall i, (i < n)%nat -> p i = true) -> allb n p = true) as AI by (intros n p Hp; now apply allb_true).
  rewrite AI; cbn [negb].
  - rewrite AI; cbn [negb]; [eauto|]. intros o Ho. apply AI. intros a Ha. apply AI. intros b Hb. apply AI. intros r Hr. rewrite HS by assumption. apply close1_1.
  - intros o Ho. apply AI. intros i Hi. apply AI. intros a Ha. apply AI. intros b Hb. apply AI. intros r Hr. unfold rlt.
    destruct (Rlt_dec 0 (w o i a b r)) as [|C]; [reflexivity|]. exfalso. apply C. auto.
Qed.

(** ** C50: ProdConv *)

(** output feature (oh, ow): the product over the pixels of its window *)
Theorem C50_window_product : forall c kh kw ph pw v x, vbuilt c -> valigned c -> mk_prodconv c kh kw ph pw = Ok v ->
  features (vshape v) = (((side c + 2 * ph) / kh) * ((side c + 2 * pw) / kw))%nat /\
  forall oh ow k r, (oh < (side c + 2 * ph) / kh)%nat -> (ow < (side c + 2 * pw) / kw)%nat ->
  vprob v x (oh * ((side c + 2 * pw) / kw) + ow) k r =
  bprod (side c) (fun h => bprod (side c) (fun w =>
    if (Nat.eqb ((h + ph) / kh) oh && Nat.eqb ((w + pw) / kw) ow)%bool then vprob c x (h * side c + w) k r else 1)).
Proof.
  intros c kh kw ph pw v x B A E. pose proof (vbuilt_vwf c B A) as Wc. apply mk_prodconv_ok in E. destruct E as (-> & Hh & Hw & Sq).
  split; [reflexivity|]. intros oh ow k r Ho1 Ho2. rewrite vprob_pev, vpev_prodconv. set (n := side c) in *.
  change ((n + 2 * pw) / kw)%nat with (conv_out n kw pw) in *. set (OW := conv_out n kw pw) in *.
  set (f := (oh * OW + ow)%nat). destruct (div_mod_enc OW oh ow Ho2) as [D1 D2]. fold f in D1, D2.
  set (P := fun g => (Nat.eqb ((g / n + ph) / kh) oh && Nat.eqb ((g mod n + pw) / kw) ow)%bool).
  set (F := fun g => vpev (leaf_score x) c g k r).
  assert (Permutation (window n kh kw ph pw f) (filter P (flat_map (fun h => map (fun w => (h * n + w)%nat) (seq 0 n)) (seq 0 n)))) as PM.
  { assert (NoDup (flat_map (fun h => map (fun w => (h * n + w)%nat) (seq 0 n)) (seq 0 n))) as ND.
    { apply flat_map_NoDup; [apply seq_NoDup| |].
      - intros h _. apply FinFun.Injective_map_NoDup; [intros p q; lia|apply seq_NoDup].
      - intros h h' g Hh1 Hh2 I1 I2. apply in_map_iff in I1, I2. destruct I1 as (w1 & <- & I1). destruct I2 as (w2 & E2 & I2). apply in_seq in I1, I2.
        destruct (div_mod_enc n h w1 ltac:(lia)) as [X1 _]. destruct (div_mod_enc n h' w2 ltac:(lia)) as [X2 _]. rewrite <- X1, <- X2. now rewrite E2. }
    apply NoDup_Permutation; [now apply window_NoDup|now apply NoDup_filter|]. intros g. rewrite window_In by assumption. fold OW. rewrite D1, D2.
    rewrite filter_In, in_flat_map. unfold P. rewrite andb_true_iff, !Nat.eqb_eq. split.
    - intros (Hg & A1 & A2). split; [|auto]. destruct (dec_lt n n g Hg) as (G1 & G2 & G3). exists (g / n)%nat. split; [apply in_seq; lia|].
      apply in_map_iff. exists (g mod n)%nat. split; [lia|apply in_seq; lia].
    - intros ((h & Ih & Ig) & A1 & A2). apply in_seq in Ih. apply in_map_iff in Ig. destruct Ig as (w & <- & Iw). apply in_seq in Iw.
      split; [apply enc_lt; lia|auto]. }
  rewrite (lprod_perm _ _ _ PM). rewrite lprod_filter. rewrite lprod_flat_map, <- bprod_lprod. apply bprod_ext. intros h Hh1.
  rewrite lprod_map, <- bprod_lprod. apply bprod_ext. intros w Hw1. unfold P, F. destruct (div_mod_enc n h w Hw1) as [-> ->]. reflexivity.
Qed.

(** the scope of an output feature: the variables of the pixels of its window *)
Theorem C50_feature_scope : forall c kh kw ph pw v oh ow u, vbuilt c -> valigned c -> mk_prodconv c kh kw ph pw = Ok v ->
  (oh < (side c + 2 * ph) / kh)%nat -> (ow < (side c + 2 * pw) / kw)%nat ->
  In u (nth (oh * ((side c + 2 * pw) / kw) + ow) (vfts v) []) <->
  exists h w, (h < side c)%nat /\ (w < side c)%nat /\ ((h + ph) / kh = oh)%nat /\ ((w + pw) / kw = ow)%nat /\ In u (nth (h * side c + w) (vfts c) []).
Proof.
  intros c kh kw ph pw v oh ow u B A E Ho1 Ho2. pose proof (vbuilt_vwf c B A) as Wc. apply mk_prodconv_ok in E. destruct E as (-> & Hh & Hw & Sq).
  set (n := side c) in *. change ((n + 2 * pw) / kw)%nat with (conv_out n kw pw) in *. set (OW := conv_out n kw pw) in *.
  destruct (div_mod_enc OW oh ow Ho2) as [D1 D2]. change (nth ?f (vfts ?v) []) with (vnthq v f). rewrite vnthq_prodconv by (apply enc_lt; assumption).
  rewrite prod_In. fold n. split.
  - intros (g & Hg & Hu). apply window_In in Hg; auto. fold OW in Hg. rewrite D1, D2 in Hg. destruct Hg as (Hg & A1 & A2).
    destruct (dec_lt n n g Hg) as (G1 & G2 & G3). exists (g / n)%nat, (g mod n)%nat. rewrite <- G3. auto.
  - intros (h & w & Hh1 & Hw1 & A1 & A2 & Hu). exists (h * n + w)%nat. split; [|exact Hu]. apply window_In; auto. fold OW. rewrite D1, D2.
    destruct (div_mod_enc n h w Hw1) as [-> ->]. split; [now apply enc_lt|auto].
Qed.

(** every variable of the image is in the scope of exactly one output feature exactly if
    the windows reach the far edges of the image *)
Theorem C50_partition : forall c kh kw ph pw v, vbuilt c -> valigned c -> mk_prodconv c kh kw ph pw = Ok v -> (0 < side c)%nat ->
  (forall g, (g < side c * side c)%nat -> nth g (vfts c) [] <> []) ->
  let OH := ((side c + 2 * ph) / kh)%nat in let OW := ((side c + 2 * pw) / kw)%nat in
  (forall g u, (g < side c * side c)%nat -> In u (nth g (vfts c) []) ->
     exists f, (f < OH * OW)%nat /\ In u (nth f (vfts v) []) /\ forall f', (f' < OH * OW)%nat -> In u (nth f' (vfts v) []) -> f' = f) <->
  (side c + ph <= kh * OH /\ side c + pw <= kw * OW)%nat.
Proof.
  intros c kh kw ph pw v B A E Hn NE OH OW. pose proof (proj1 (mk_prodconv_ok _ _ _ _ _ _) E) as (_ & Hh & Hw & Sq).
  pose proof (v_disj c (vwf_vwf1 c (vbuilt_vwf c B A))) as DJ. set (n := side c) in *.
  assert (SC : forall f u, (f < OH * OW)%nat -> In u (nth f (vfts v) []) <->
     exists h w, (h < n)%nat /\ (w < n)%nat /\ ((h + ph) / kh = f / OW)%nat /\ ((w + pw) / kw = f mod OW)%nat /\ In u (nth (h * n + w) (vfts c) [])).
  { intros f u Hf. destruct (dec_lt OW OH f Hf) as (D1 & D2 & D3). rewrite D3 at 1.
    exact (C50_feature_scope c kh kw ph pw v (f / OW)%nat (f mod OW)%nat u B A E D1 D2). }
  assert (PX : forall g g' u, (g < n * n)%nat -> (g' < n * n)%nat -> In u (nth g (vfts c) []) -> In u (nth g' (vfts c) []) -> g = g').
  { intros g g' u Hg Hg' I1 I2. destruct (Nat.eq_dec g g') as [|N]; [assumption|]. exfalso.
    apply (DJ g g' ltac:(lia) ltac:(lia) N u I1 I2). }
  assert (EDGE : forall k p O, (1 <= k)%nat -> (((n - 1 + p) / k < O)%nat <-> (n + p <= k * O)%nat)).
  { intros k p O Hk. split.
    - intros H. pose proof (Nat.div_mod (n - 1 + p) k ltac:(lia)) as Ed. pose proof (Nat.mod_upper_bound (n - 1 + p) k ltac:(lia)). nia.
    - intros H. apply Nat.div_lt_upper_bound; lia. }
  split.
  - intros H. set (g := ((n - 1) * n + (n - 1))%nat). assert (Hg : (g < n * n)%nat) by (apply enc_lt; lia).
    destruct (nth g (vfts c) []) as [|u l] eqn:Eg; [exfalso; exact (NE g Hg Eg)|].
    assert (Hu : In u (nth g (vfts c) [])) by (rewrite Eg; now left).
    destruct (H g u Hg Hu) as (f & Hf & If & _). apply (SC f u Hf) in If. destruct If as (h & w & Hh1 & Hw1 & E1 & E2 & Iu).
    pose proof (PX (h * n + w)%nat g u (enc_lt n n h w Hh1 Hw1) Hg Iu Hu) as Q. unfold g in Q.
    destruct (div_mod_enc n h w Hw1) as [X1 X2]. destruct (div_mod_enc n (n - 1) (n - 1) ltac:(lia)) as [Y1 Y2].
    rewrite Q in X1, X2. rewrite Y1 in X1. rewrite Y2 in X2. subst h w.
    destruct (dec_lt OW OH f Hf) as (D1 & D2 & _). split; apply EDGE; try assumption; lia.
  - intros [H1 H2] g u Hg Hu. apply EDGE in H1, H2; try assumption.
    destruct (dec_lt n n g Hg) as (G1 & G2 & G3). set (h := (g / n)%nat) in *. set (w := (g mod n)%nat) in *.
    assert (Oh : ((h + ph) / kh < OH)%nat).
    { eapply Nat.le_lt_trans; [|exact H1]. apply Nat.div_le_mono; lia. }
    assert (Ow : ((w + pw) / kw < OW)%nat).
    { eapply Nat.le_lt_trans; [|exact H2]. apply Nat.div_le_mono; lia. }
    exists ((h + ph) / kh * OW + (w + pw) / kw)%nat. assert (Hf : ((h + ph) / kh * OW + (w + pw) / kw < OH * OW)%nat) by now apply enc_lt.
    destruct (div_mod_enc OW ((h + ph) / kh) ((w + pw) / kw) Ow) as [X1 X2]. split; [exact Hf|]. split.
    + apply SC; [exact Hf|]. exists h, w. rewrite X1, X2. rewrite <- G3. auto.
    + intros f' Hf' I'. apply (SC f' u Hf') in I'. destruct I' as (h' & w' & Hh' & Hw' & E1 & E2 & Iu').
      pose proof (PX (h' * n + w')%nat g u (enc_lt n n h' w' Hh' Hw') Hg Iu' Hu) as Q.
      destruct (div_mod_enc n h' w' Hw') as [Z1 Z2]. rewrite Q in Z1, Z2. fold h in Z1. fold w in Z2. subst h' w'.
      destruct (dec_lt OW OH f' Hf') as (_ & _ & D3). rewrite D3, <- E1, <- E2. reflexivity.
Qed.
(** padding 0 and a kernel size dividing the image size: every variable is covered *)
Lemma C50_partition_divides n k : (1 <= k)%nat -> (n mod k = 0)%nat -> (n + 0 <= k * ((n + 2 * 0) / k))%nat.
Proof. intros Hk Hm. pose proof (Nat.div_mod n k ltac:(lia)). replace (n + 2 * 0)%nat with n by lia. lia. Qed.

(** ** Circuits of Sum, Product, SumConv and ProdConv over any module: every output is
    a distribution over its feature's variables, and NaN marginalises *)
Theorem C50_normalised : forall D v s f c r vs x, vbuilt v -> valigned v -> vleaves_norm D v -> vll_shape v = Ok s -> in_shape s f c r ->
  NoDup vs -> (forall u, In u vs <-> In u (nth f (vfts v) [])) -> sums_over D vs (fun y => vprob v y f c r) x 1.
Proof.
  intros D v s f c r vs x B A N L I ND H. pose proof (vbuilt_vwf v B A) as Wv. apply vnorm; auto. eapply in_shape_vpos; eauto.
Qed.

Theorem C50_marginal : forall D v s f c r vs x, vbuilt v -> valigned v -> vleaves_norm D v -> vll_shape v = Ok s -> in_shape s f c r ->
  NoDup vs -> incl vs (nth f (vfts v) []) -> sums_over D vs (fun y => vprob v y f c r) x (vprob v (set_nan vs x) f c r).
Proof.
  intros D v s f c r vs x B A N L I ND H. pose proof (vbuilt_vwf v B A) as Wv. apply vsums; auto. eapply in_shape_vpos; eauto.
Qed.

(** if no pixel is dropped, all features together cover the declared scope, each
    variable once *)
Theorem C50_scope : forall v, vbuilt v -> valigned v -> covered v ->
  (forall u, In u (query (vscope v)) <-> exists f, (f < features (vshape v))%nat /\ In u (nth f (vfts v) [])) /\
  (forall f g u, (f < features (vshape v))%nat -> (g < features (vshape v))%nat -> In u (nth f (vfts v) []) -> In u (nth g (vfts v) []) -> f = g).
Proof.
  intros v B A C. pose proof (vbuilt_vwf v B A) as Wv. split.
  - intros u. rewrite (vscope_base v Wv C). split; [apply (vnthq_cover v Wv C)|]. intros (f & Hf & Hu). apply (vnthq_base v Wv f u Hf Hu).
  - intros f g u Hf Hg Hu Hu'. destruct (Nat.eq_dec f g) as [E|E]; [exact E|exfalso]. apply (v_disj v (vwf_vwf1 v Wv) f g Hf Hg E u Hu Hu').
Qed.

(** ** C154: sampling *)
Theorem C154_sample : forall D W v s h I x vs, (forall u a, 0 <= h u a) -> vbuilt v -> valigned v -> exact_fit v -> vll_shape v = Ok s ->
  (0 < repetitions s)%nat -> (forall u, In u (query (vscope v)) -> (u < W)%nat) -> vleaf_int D h I v ->
  (forall u, In u (query (vscope v)) -> x u = None) -> NoDup vs -> (forall u, In u vs <-> In u (query (vscope v))) ->
  exists u, expects D (vsample0 false W v x) (tests h vs) u /\ sums_over D vs (fun y => vjoint v y * tests h vs y) x u.
Proof. intros D W v s h I x vs Hh B A X L R HW HI Hx ND Hvs. eapply v_unconditional; eauto. now apply vbuilt_vwf. Qed.

Theorem C154_sample_with_evidence : forall D W v s h I e vs, (forall u a, 0 <= h u a) -> vbuilt v -> valigned v -> exact_fit v -> vll_shape v = Ok s ->
  (0 < repetitions s)%nat -> (forall u, In u (query (vscope v)) -> (u < W)%nat) -> vleaf_int D h I v ->
  vsums_positive v e -> vjoint v e <> 0 -> missing e (query (vscope v)) vs ->
  exists u, expects D (vsample_with_evidence false W v e) (tests h vs) u /\ sums_over D vs (fun y => vjoint v y * tests h vs y) e (u * vjoint v e).
Proof. intros D W v s h I e vs Hh B A X L R HW HI SP J Mi. eapply v_conditional; eauto. now apply vbuilt_vwf. Qed.

(** discrete case: every complete image appears with its probability *)
Theorem C154_sample_finite : forall (dom : nat -> list R) W v s x vs y, (forall u, NoDup (dom u)) -> vbuilt v -> valigned v -> exact_fit v -> vll_shape v = Ok s ->
  (0 < repetitions s)%nat -> (forall u, In u (query (vscope v)) -> (u < W)%nat) ->
  (forall u, In u (query (vscope v)) -> x u = None) -> NoDup vs -> (forall u, In u vs <-> In u (query (vscope v))) ->
  (forall u, In u vs -> exists b, y u = Some b /\ In b (dom u)) -> (forall u, ~ In u vs -> y u = x u) ->
  expects (fun u => DFin (dom u)) (vsample0 false W v x) (tests (point y) vs) (vjoint v y).
Proof. intros dom W v s x vs y ND B A X L R HW. eapply v_unconditional_fin; eauto. now apply vbuilt_vwf. Qed.

Theorem C154_sample_with_evidence_finite : forall (dom : nat -> list R) W v s e vs y, (forall u, NoDup (dom u)) -> vbuilt v -> valigned v -> exact_fit v -> vll_shape v = Ok s ->
  (0 < repetitions s)%nat -> (forall u, In u (query (vscope v)) -> (u < W)%nat) ->
  vsums_positive v e -> vjoint v e <> 0 -> missing e (query (vscope v)) vs ->
  (forall u, In u vs -> exists b, y u = Some b /\ In b (dom u)) -> (forall u, ~ In u vs -> y u = e u) ->
  expects (fun u => DFin (dom u)) (vsample_with_evidence false W v e) (tests (point y) vs) (vjoint v y / vjoint v e).
Proof. intros dom W v s e vs y ND B A X L R HW. eapply v_conditional_fin; eauto. now apply vbuilt_vwf. Qed.

(** ** C155: ConvPc *)

(** an n by n image whose padding is symmetric: the model builds, has one output, and
    its likelihood is a normalised density of all pixels whose NaN are marginals *)
Theorem C155_density : forall leaf sl n ch depth k use ls lc lroot, built leaf -> aligned leaf -> features (out_shape leaf) = (n * n)%nat ->
  ll_shape leaf = Ok sl -> repetitions sl = 1%nat -> (1 <= n)%nat -> (1 <= ch)%nat -> (1 <= k)%nat -> (1 <= depth)%nat -> fits n (k ^ depth) ->
  exists v, conv_pc leaf n n ch depth k 1 use ls lc lroot = Ok v /\ vll_shape v = Ok (mkShape 1 1 1) /\
  (forall u, In u (query (vscope v)) <-> vars leaf u) /\
  forall D, leaves_norm D leaf ->
    (forall vs x, NoDup vs -> (forall u, In u vs <-> vars leaf u) -> sums_over D vs (fun y => vprob v y 0 0 0) x 1) /\
    (forall vs x, NoDup vs -> (forall u, In u vs -> vars leaf u) -> sums_over D vs (fun y => vprob v y 0 0 0) x (vprob v (set_nan vs x) 0 0 0)).
Proof.
  intros leaf sl n ch depth k use ls lc lroot B A EF L R Hn Hc Hk Hd Hf.
  destruct (conv_pc_ok leaf sl n ch depth k use ls lc lroot (built_wf _ B) A EF L R Hn Hc Hk Hd Hf) as (v & E & Wv & Eb & El & Cv & Sh & Lv & _).
  exists v. split; [exact E|]. split; [exact Lv|].
  assert (forall u, In u (vnthq v 0) <-> vars leaf u) as EV.
  { intros u. unfold vars. rewrite <- Eb. split.
    - intros Hu. apply (vnthq_base v Wv 0 u); [rewrite Sh; cbn; lia|exact Hu].
    - intros Hu. destruct (vnthq_cover v Wv Cv u Hu) as (f & Hf' & Hu'). rewrite Sh in Hf'. cbn in Hf'. assert (f = 0%nat) as -> by lia. exact Hu'. }
  split; [intros u; rewrite (vscope_base v Wv Cv), Eb; reflexivity|].
  intros D N. assert (vleaves_norm D v) as Nv by (unfold vleaves_norm; rewrite El; exact N).
  assert (vpos v 0 0 0) as P by (apply (in_shape_vpos v _ 0 0 0 Wv Lv); repeat split; cbn; lia).
  split.
  - intros vs x ND Hvs. apply vnorm; auto. intros u. rewrite Hvs, EV. reflexivity.
  - intros vs x ND Hvs. apply vsums; auto. intros u Hu. apply EV. now apply Hvs.
Qed.

(** when k^depth divides n the sampler follows that density ... *)
Theorem C155_sample : forall leaf sl n ch depth k use ls lc lroot v (dom : nat -> list R) W rows x vs y,
  built leaf -> aligned leaf -> features (out_shape leaf) = (n * n)%nat -> ll_shape leaf = Ok sl -> repetitions sl = 1%nat ->
  (1 <= n)%nat -> (1 <= ch)%nat -> (1 <= k)%nat -> (1 <= depth)%nat -> (n mod k ^ depth = 0)%nat ->
  conv_pc leaf n n ch depth k 1 use ls lc lroot = Ok v -> (forall u, NoDup (dom u)) -> (forall u, vars leaf u -> (u < W)%nat) ->
  (forall z u, In z rows -> (u < W)%nat -> z u = None) -> In x rows ->
  NoDup vs -> (forall u, In u vs <-> vars leaf u) ->
  (forall u, In u vs -> exists b, y u = Some b /\ In b (dom u)) -> (forall u, ~ In u vs -> y u = x u) ->
  expects (fun u => DFin (dom u)) (conv_pc_sample false W rows v x) (tests (point y) vs) (vprob v y 0 0 0).
Proof.
  intros leaf sl n ch depth k use ls lc lroot v dom W rows x vs y B A EF L R Hn Hc Hk Hd Hm E ND HW Hrows Hx NDv Hvs Hy Ho.
  assert (1 <= k ^ depth)%nat as Ht by (pose proof (Nat.pow_nonzero k depth ltac:(lia)); lia).
  destruct (fit_exact n (k ^ depth) Ht Hn Hm) as (_ & _ & Hf).
  destruct (conv_pc_ok leaf sl n ch depth k use ls lc lroot (built_wf _ B) A EF L R Hn Hc Hk Hd Hf) as (v' & E' & Wv & Eb & El & Cv & Sh & Lv & X).
  rewrite E in E'. injection E' as <-. specialize (X Hm).
  assert (forall u, In u (query (vscope v)) <-> vars leaf u) as EV by (intros u; rewrite (vscope_base v Wv Cv), Eb; reflexivity).
  assert (has_partial W rows = false) as HP.
  { unfold has_partial. apply andb_false_iff. right. apply Bool.not_true_is_false. intros C. apply existsb_exists in C.
    destruct C as (z & Hz & C). apply existsb_exists in C. destruct C as (u & Hu & C). apply in_seq in Hu. rewrite (Hrows z u Hz ltac:(lia)) in C. discriminate. }
  unfold conv_pc_sample. rewrite HP. replace (vprob v y 0 0 0) with (vjoint v y).
  - apply (v_unconditional_fin dom W v (mkShape 1 1 1)); auto.
    + intros u Hu. apply HW. now apply EV.
    + intros u Hu. apply (Hrows x u Hx). apply HW. now apply EV.
    + intros u. rewrite Hvs, EV. reflexivity.
  - unfold vjoint. rewrite Sh. cbn. ring.
Qed.

(** ... and, in a batch with observed and missing values, its conditional given the
    observed pixels of each row *)
Theorem C155_sample_with_evidence : forall leaf sl n ch depth k use ls lc lroot v (dom : nat -> list R) W rows e vs y,
  built leaf -> aligned leaf -> features (out_shape leaf) = (n * n)%nat -> ll_shape leaf = Ok sl -> repetitions sl = 1%nat ->
  (1 <= n)%nat -> (1 <= ch)%nat -> (1 <= k)%nat -> (1 <= depth)%nat -> (n mod k ^ depth = 0)%nat ->
  conv_pc leaf n n ch depth k 1 use ls lc lroot = Ok v -> (forall u, NoDup (dom u)) -> (forall u, vars leaf u -> (u < W)%nat) ->
  (exists z u, In z rows /\ (u < W)%nat /\ z u = None) -> (exists z u, In z rows /\ (u < W)%nat /\ z u <> None) -> In e rows ->
  vsums_positive v e -> vprob v e 0 0 0 <> 0 -> NoDup vs -> (forall u, In u vs <-> vars leaf u /\ e u = None) ->
  (forall u, In u vs -> exists b, y u = Some b /\ In b (dom u)) -> (forall u, ~ In u vs -> y u = e u) ->
  expects (fun u => DFin (dom u)) (conv_pc_sample false W rows v e) (tests (point y) vs) (vprob v y 0 0 0 / vprob v e 0 0 0).
Proof.
  intros leaf sl n ch depth k use ls lc lroot v dom W rows e vs y B A EF L R Hn Hc Hk Hd Hm E ND HW (z & u & Z1 & Z2 & Z3) (z' & u' & Z1' & Z2' & Z3') Hx SP J NDv Hvs Hy Ho.
  assert (1 <= k ^ depth)%nat as Ht by (pose proof (Nat.pow_nonzero k depth ltac:(lia)); lia).
  destruct (fit_exact n (k ^ depth) Ht Hn Hm) as (_ & _ & Hf).
  destruct (conv_pc_ok leaf sl n ch depth k use ls lc lroot (built_wf _ B) A EF L R Hn Hc Hk Hd Hf) as (v' & E' & Wv & Eb & El & Cv & Sh & Lv & X).
  rewrite E in E'. injection E' as <-. specialize (X Hm).
  assert (forall u, In u (query (vscope v)) <-> vars leaf u) as EV by (intros w; rewrite (vscope_base v Wv Cv), Eb; reflexivity).
  assert (has_partial W rows = true) as HP.
  { unfold has_partial. apply andb_true_iff. split; apply existsb_exists.
    - exists z. split; [exact Z1|]. apply existsb_exists. exists u. split; [apply in_seq; lia|]. now rewrite Z3.
    - exists z'. split; [exact Z1'|]. apply existsb_exists. exists u'. split; [apply in_seq; lia|]. destruct (z' u'); [reflexivity|congruence]. }
  assert (forall y, vjoint v y = vprob v y 0 0 0) as EJ by (intros w; unfold vjoint; rewrite Sh; cbn; ring).
  unfold conv_pc_sample. rewrite HP. rewrite <- !EJ.
  apply (v_conditional_fin dom W v (mkShape 1 1 1)); auto.
  - intros w Hw. apply HW. now apply EV.
  - now rewrite EJ.
  - split; [exact NDv|]. intros w. rewrite Hvs, EV. reflexivity.
Qed.

(** ** C156 (refuted): ConvPc works for every image size.  Whenever the padding would
    have to be asymmetric the model is built but every evaluation raises. *)
Theorem C156_odd_padding_refuted : forall leaf n ch depth k use ls lc lroot, built leaf -> aligned leaf -> features (out_shape leaf) = (n * n)%nat ->
  (1 <= n)%nat -> (1 <= ch)%nat -> (1 <= k)%nat -> (1 <= depth)%nat -> ~ fits n (k ^ depth) ->
  exists v, conv_pc leaf n n ch depth k 1 use ls lc lroot = Ok v /\ vll_shape v = Err.
Proof. intros leaf n ch depth k use ls lc lroot B. apply conv_pc_odd. now apply built_wf. Qed.

(** ** Witnesses *)

(** n*n binary pixels, two channels *)
Definition img (n : nat) (p0 p1 : R) : module := MLeaf (bern (seq 0 (n * n)) 2 1 (fun _ c _ => if Nat.eqb c 0 then p0 else p1)).

Lemma img_built n p0 p1 : (1 <= n)%nat -> built (img n p0 p1).
Proof.
  intros Hn. apply b_leaf. apply bern_ok; try lia; [|apply seq_NoDup]. intros C. apply (f_equal (@length _)) in C. rewrite seq_length in C. cbn in C. nia.
Qed.
Lemma img_features n p0 p1 : features (out_shape (img n p0 p1)) = (n * n)%nat.
Proof. cbn. apply seq_length. Qed.
Lemma img_norm n p0 p1 : 0 <= p0 <= 1 -> 0 <= p1 <= 1 -> leaves_norm (fun _ => bits) (img n p0 p1).
Proof. intros H0 H1. constructor; [|constructor]. apply bern_norm. intros f c r. destruct (Nat.eqb c 0); assumption. Qed.

(** mixture weights (a, 1 - a) *)
Definition w2 (a : R) (i : nat) : R := if Nat.eqb i 0 then ln a else ln (1 - a).
Lemma softmax_w2 a : 0 < a < 1 -> softmax 2 (w2 a) 0 = a /\ softmax 2 (w2 a) 1 = 1 - a.
Proof.
  intros H. assert (forall i, (i < 2)%nat -> softmax 2 (w2 a) i = (fun i => if Nat.eqb i 0 then a else 1 - a) i) as K.
  { intros i Hi. transitivity (softmax 2 (fun j => ln ((fun i => if Nat.eqb i 0 then a else 1 - a) j)) i).
    - unfold softmax, w2. destruct (Nat.eqb i 0); f_equal; apply bsum_ext; intros j _; now destruct (Nat.eqb j 0).
    - apply softmax_ln; auto; [intros j _; destruct (Nat.eqb j 0); lra|cbn; lra]. }
  split; [apply (K 0%nat); lia|apply (K 1%nat); lia].
Qed.

(** *** C157 (refuted): with padding the sampler follows the density.  A 1 by 1 image,
    kernel 3, depth 1: the pixel sits in the centre of the 3 by 3 grid, but the sampler
    reads the mixture chosen for the top left corner. *)
Definition pad_ls (_ f i _ _ : nat) : R := w2 (if Nat.eqb f 0 then 3/4 else 1/4) i.
Definition pad_base : cv := VProdConv (VMod (img 1 (1/4) (3/4))) 1 1 1 1.
Definition pad_pc : cv := VSum (VProdConv (VSum pad_base 1 1 (pad_ls 0)) 3 3 0 0) 1 1 (fun _ _ _ _ => 0).

Lemma pad_pc_built : conv_pc (img 1 (1/4) (3/4)) 1 1 1 1 3 1 false pad_ls (fun _ _ _ _ _ _ => 0) (fun _ _ _ _ => 0) = Ok pad_pc.
Proof. reflexivity. Qed.

Lemma expects_first D n pick (p : nat -> nat -> nat -> R) (phi : nat -> R) ci c0 :
  (forall j, (j < length (c0 :: ci))%nat -> pick (0 + j)%nat (nth j (c0 :: ci) 0%nat) = Choose n (p (0 + j)%nat (nth j (c0 :: ci) 0%nat)) (fun i => Ret i)) ->
  (forall j, (j < length (c0 :: ci))%nat -> bsum n (p j (nth j (c0 :: ci) 0%nat)) = 1) ->
  expects D (choose_channels pick 0 (c0 :: ci)) (fun ns => phi (nth 0 ns 0%nat)) (bsum n (fun i => p 0%nat c0 i * phi i)).
Proof.
  intros Hp H1. pose proof (choose_expects D n pick p 1 (fun f i => if Nat.eqb f 0 then phi i else 1) (c0 :: ci) 0 Hp) as CE.
  rewrite Rmult_1_l in CE. cbn [length] in CE. rewrite bprod_S_first in CE. cbn [plus Nat.eqb nth] in CE.
  rewrite (bprod_one (length ci)) in CE.
  - rewrite Rmult_1_r in CE. eapply expects_ext; [|exact CE]. intros ns _. cbn beta. rewrite bprod_S_first. cbn [Nat.eqb nth].
    rewrite (bprod_one (length ci)); [ring|]. reflexivity.
  - intros j Hj. etransitivity; [|apply (H1 (S j)); cbn; lia]. apply bsum_ext. intros i _. cbn [nth]. apply Rmult_1_r.
Qed.

Theorem C157_padding_sampler_refuted :
  let bit1 : row := fun u => if Nat.eqb u 0 then Some 1 else None in
  vprob pad_pc bit1 0 0 0 = 5/8 /\
  expects (fun _ => bits) (vsample0 false 1 pad_pc (fun _ => None)) (tests (point bit1) [0%nat]) (3/8).
Proof.
  intros bit1. split.
  - assert (forall f, vpev (leaf_score bit1) (VSum pad_base 1 1 (pad_ls 0)) f 0 0 =
      softmax 2 (w2 (if Nat.eqb f 0 then 3/4 else 1/4)) 0 * vpev (leaf_score bit1) pad_base f 0 0 +
      softmax 2 (w2 (if Nat.eqb f 0 then 3/4 else 1/4)) 1 * vpev (leaf_score bit1) pad_base f 1 0) as E1.
    { intros f. rewrite vpev_sum by (cbn; lia). change (channels (vshape pad_base)) with 2%nat. cbn [bsum]. unfold pad_ls. rewrite Rplus_0_l. reflexivity. }
    assert (forall f c, vpev (leaf_score bit1) pad_base f c 0 = if Nat.eqb f 4 then vpev (leaf_score bit1) (VMod (img 1 (1/4) (3/4))) 0 c 0 else lprod (window 1 1 1 1 1 f) (fun g => vpev (leaf_score bit1) (VMod (img 1 (1/4) (3/4))) g c 0)) as E2.
    { intros f c. unfold pad_base. rewrite vpev_prodconv. destruct (Nat.eqb_spec f 4) as [->|]; [|reflexivity]. change (window (side (VMod (img 1 (1 / 4) (3 / 4)))) 1 1 1 1 4) with [0%nat]. apply Rmult_1_r. }
    unfold pad_pc. rewrite vprob_pev, vpev_sum by (cbn; lia).
    change (channels (vshape (VProdConv (VSum pad_base 1 1 (pad_ls 0)) 3 3 0 0))) with 1%nat. cbn [bsum]. rewrite Rplus_0_l.
    assert (softmax 1 (fun _ => 0) 0 = 1) as -> by (unfold softmax; cbn [bsum]; rewrite exp_0; field).
    rewrite Rmult_1_l, !nodes_bidx0, vpev_prodconv.
    change (window (side (VSum pad_base 1 1 (pad_ls 0))) 3 3 0 0 0) with [0; 1; 2; 3; 4; 5; 6; 7; 8]%nat. cbn [lprod].
    rewrite !E1, !E2. cbn [Nat.eqb].
    change (window 1 1 1 1 1 0) with (@nil nat). change (window 1 1 1 1 1 1) with (@nil nat). change (window 1 1 1 1 1 2) with (@nil nat).
    change (window 1 1 1 1 1 3) with (@nil nat). change (window 1 1 1 1 1 5) with (@nil nat). change (window 1 1 1 1 1 6) with (@nil nat).
    change (window 1 1 1 1 1 7) with (@nil nat). change (window 1 1 1 1 1 8) with (@nil nat). cbn [lprod].
    assert (vpev (leaf_score bit1) (VMod (img 1 (1/4) (3/4))) 0 0 0 = 1/4) as -> by (apply pr_bern_1; lra).
    assert (vpev (leaf_score bit1) (VMod (img 1 (1/4) (3/4))) 0 1 0 = 3/4) as -> by (apply pr_bern_1; lra).
    destruct (softmax_w2 (3/4) ltac:(lra)) as [-> ->]. destruct (softmax_w2 (1/4) ltac:(lra)) as [-> ->]. lra.
  - unfold vsample0, pad_pc. cbn [vsample].
    change (features (vshape (VProdConv (VSum pad_base 1 1 (pad_ls 0)) 3 3 0 0))) with 1%nat.
    change (validate [1%nat; 1%nat] 1 1 init_ctx) with true. cbv iota. change (broadcast 1 init_ctx) with (Ok init_ctx). cbv iota.
    match goal with |- context [choose_channels ?p 0 (c_ci init_ctx)] => set (P0 := p) end.
    assert (forall c, (c < 1)%nat -> P0 0%nat c = Choose 1 (fun _ => 1) (fun i => Ret i)) as HP0.
    { intros c Hc. unfold P0, mix_pick. assert (c = 0)%nat as -> by lia. cbn [option_map c_rep init_ctx Nat.ltb Nat.leb andb]. unfold sample_logits.
      cbn [bsum pr]. rewrite exp_0. change (channels (vshape (VProdConv (VSum pad_base 1 1 (pad_ls 0)) 3 3 0 0))) with 1%nat. cbn [bsum]. rewrite Rplus_0_l.
      destruct (Rlt_dec 0 1) as [_|C]; [|lra]. change (Nat.ltb 0 1 && Nat.ltb 0 1)%bool with true. cbv iota. replace (1 / 1) with 1 by field. reflexivity. }
    eapply expects_bind with (u2 := fun _ => 3/8).
    + change (c_ci init_ctx) with [0%nat].
      pose proof (expects_first (fun _ => bits) 1 P0 (fun _ _ _ => 1) (fun _ => 3/8) [] 0%nat) as EX.
      cbn [bsum] in EX. rewrite Rmult_1_l, !Rplus_0_l in EX. apply EX.
      * intros j Hj. cbn in Hj. assert (j = 0)%nat as -> by lia. apply HP0. cbn. lia.
      * intros j _. reflexivity.
    + intros ns0 Ho.
      destruct (choose_outcome 1 P0 (fun _ _ _ => 1) (c_ci init_ctx) 0 ns0) as [Ln Hn]; [|exact Ho|].
      { intros j Hj. cbn in Hj. assert (j = 0)%nat as -> by lia. apply HP0. cbn. lia. }
      destruct ns0 as [|n0 [|? ?]]; try discriminate. specialize (Hn 0%nat ltac:(cbn; lia)). cbn in Hn. destruct Hn as [Hn _].
      assert (n0 = 0)%nat as -> by lia. clear Ln Hn Ho P0 HP0.
      change (prod_route _ _ _ 0 0 3 3 _ _ _ _ _) with (Ok (mkCtx [0;0;0;0;0;0;0;0;0]%nat [true;true;true;true;true;true;true;true;true] 0)). cbv iota.
      change (features (vshape pad_base)) with 9%nat.
      change (validate [1%nat; 9%nat] 1 1 _) with true. cbv iota.
      change (broadcast 9 ?t) with (Ok t). cbv iota. cbn [c_rep c_mask c_ci].
      match goal with |- context [choose_channels ?p 0 _] => set (P1 := p) end.
      set (pp := fun (f _ i : nat) => softmax 2 (w2 (if Nat.eqb f 0 then 3/4 else 1/4)) i).
      assert (forall f c, (c < 1)%nat -> P1 f c = Choose 2 (pp f c) (fun i => Ret i)) as HP1.
      { intros f c Hc. unfold P1, mix_pick. assert (c = 0)%nat as -> by lia. cbn [option_map Nat.ltb Nat.leb andb]. unfold sample_logits.
        change (channels (vshape pad_base)) with 2%nat. change (Nat.ltb 0 1 && Nat.ltb 0 1)%bool with true. cbv iota. destruct (Rlt_dec 0 _) as [_|C].
        - reflexivity.
        - exfalso. apply C. cbn [bsum pr]. pose proof (exp_pos (pad_ls 0 f 0 0 0)). pose proof (exp_pos (pad_ls 0 f 1 0 0)). lra. }
      eapply expects_bind with (u2 := fun ns => if Nat.eqb (nth 0 ns 0%nat) 0 then 1/4 else 3/4).
      * pose proof (expects_first (fun _ => bits) 2 P1 pp (fun i => if Nat.eqb i 0 then 1/4 else 3/4) [0;0;0;0;0;0;0;0]%nat 0%nat) as EX.
        replace (3/8) with (bsum 2 (fun i => pp 0%nat 0%nat i * (if Nat.eqb i 0 then 1/4 else 3/4))).
        -- apply EX.
           ++ intros j Hj. apply HP1. cbn in Hj. do 9 (destruct j as [|j]; [cbn; lia|]). lia.
           ++ intros j Hj. unfold pp. apply softmax_sum. lia.
        -- unfold pp. cbn [Nat.eqb bsum]. destruct (softmax_w2 (3/4) ltac:(lra)) as [-> ->]. lra.
      * intros ns Ho.
        destruct (choose_outcome 2 P1 pp [0;0;0;0;0;0;0;0;0]%nat 0 ns) as [Ln Hn]; [|exact Ho|].
        { intros j Hj. apply HP1. cbn in Hj. do 9 (destruct j as [|j]; [cbn; lia|]). lia. }
        assert (forall j, (j < 9)%nat -> (nth j ns 0 < 2)%nat) as Hn' by (intros j Hj; apply (Hn j); exact Hj). clear Hn Ho P1 HP1 pp.
        destruct ns as [|n0 [|n1 [|n2 [|n3 [|n4 [|n5 [|n6 [|n7 [|n8 [|? ?]]]]]]]]]]; try discriminate.
        pose proof (Hn' 0%nat ltac:(lia)) as B0. pose proof (Hn' 1%nat ltac:(lia)) as B1. pose proof (Hn' 2%nat ltac:(lia)) as B2. pose proof (Hn' 3%nat ltac:(lia)) as B3.
        pose proof (Hn' 4%nat ltac:(lia)) as B4. pose proof (Hn' 5%nat ltac:(lia)) as B5. pose proof (Hn' 6%nat ltac:(lia)) as B6. pose proof (Hn' 7%nat ltac:(lia)) as B7.
        pose proof (Hn' 8%nat ltac:(lia)) as B8. cbn [nth] in *. clear Hn'.
        unfold pad_base. cbn [vsample].
        match goal with |- expects _ match ?p with _ => _ end _ _ => assert (p = Ok (mkCtx [n0] [true] 0)) as -> end.
        { unfold prod_route. rewrite validate_full; cbn; auto; try lia.
          - intros f Hf. do 9 (destruct f as [|f]; [assumption|]). lia. }
        assert (exists l, l = bern [0%nat] 2 1 (fun _ c _ => if Nat.eqb c 0 then 1/4 else 3/4) /\ vsample false 1 None (VMod (img 1 (1/4) (3/4))) (mkCtx [n0] [true] 0) (fun _ => None)
           = Draw l 0 n0 0 (fun a => Ret (upd (fun _ => None) 0%nat (Some a)))) as (l & El & ES).
        { eexists. split; [reflexivity|]. destruct n0 as [|[|n0]]; [reflexivity|reflexivity|lia]. }
        cbn [vsample] in ES. cbn [vsample]. rewrite ES. cbn [expects]. subst l.
        exists (fun a => if Req_EM_T a 1 then 1 else 0). split.
        -- intros a. unfold tests, point. cbn. unfold bit1, upd. cbn. destruct (Req_EM_T a 1); ring.
        -- cbn [l_lp bern]. cbn [sums bits map lsumR]. destruct (Req_EM_T 0 1); [lra|]. destruct (Req_EM_T 1 1); [|lra].
           rewrite pr_bern_1 by (destruct (Nat.eqb n0 0); lra). destruct (Nat.eqb n0 0); lra.
Qed.

(** *** C158 (refuted): a ProdConv whose kernel does not divide the image is a
    distribution over its scope.  3 by 3 pixels, kernel 2: pixel 8 is in the scope but in
    no window, its two "marginal probabilities" are both 1, and sampling raises. *)
Definition crop : cv := VProdConv (VMod (img 3 (1/4) (3/4))) 2 2 0 0.
Lemma crop_built : vbuilt crop.
Proof. apply (vb_prodconv (VMod (img 3 (1/4) (3/4))) 2 2 0 0); [apply vb_mod, img_built; lia|reflexivity]. Qed.
Theorem C158_dropped_pixels_refuted :
  mk_prodconv (VMod (img 3 (1/4) (3/4))) 2 2 0 0 = Ok crop /\ vbuilt crop /\ valigned crop /\ vleaves_norm (fun _ => bits) crop /\
  vll_shape crop = Ok (mkShape 1 2 1) /\ In 8%nat (query (vscope crop)) /\
  (forall a, vprob crop (upd (fun _ => None) 8 (Some a)) 0 0 0 = 1) /\
  vsample0 false 9 crop (fun _ => None) = Raise.
Proof.
  split; [reflexivity|]. split; [exact crop_built|]. split; [exact I|].
  split; [apply img_norm; split; lra|]. split; [reflexivity|].
  split; [change (In 8%nat (seq 0 9)); apply in_seq; lia|]. split; [|reflexivity].
  intros a. apply vprob_all_nan with (v := crop).
  - apply vbuilt_vwf; [exact crop_built|exact I].
  - split; [eexists; reflexivity|]. repeat split; apply Nat.ltb_lt; reflexivity.
  - change (vnthq crop 0) with [0; 1; 3; 4]%nat. intros u Hu. apply upd_other. cbn in Hu. lia.
Qed.

(** *** C159 (refuted): whatever can be evaluated can be sampled.  An image smaller than
    the SumConv kernel. *)
Definition small : cv := VSumConv (VMod (img 1 (1/4) (3/4))) 1 2 1 (fun _ _ _ _ _ => 0).
Theorem C159_small_image_sampling_refuted :
  mk_sumconv (VMod (img 1 (1/4) (3/4))) 1 2 1 (fun _ _ _ _ _ => 0) = Ok small /\ vbuilt small /\ valigned small /\
  vll_shape small = Ok (mkShape 1 1 1) /\
  (forall x, sums_over (fun _ => bits) [0%nat] (fun y => vprob small y 0 0 0) x 1) /\
  vsample0 false 1 small (fun _ => None) = Raise /\ forall e, vsample_with_evidence false 1 small e = Raise.
Proof.
  assert (vbuilt small) as B by (apply (vb_sumconv (VMod (img 1 (1/4) (3/4))) 1 2 1 (fun _ _ _ _ _ => 0)); [apply vb_mod, img_built; lia|reflexivity]).
  split; [reflexivity|]. split; [exact B|]. split; [exact I|]. split; [reflexivity|]. split; [|split; reflexivity].
  intros x. eapply C50_normalised with (s := mkShape 1 1 1); [exact B|exact I|apply img_norm; lra|reflexivity|repeat split; cbn; lia| |].
  - repeat constructor. intros [].
  - intros u. reflexivity.
Qed.

(** *** SumConv EM writes one set of weights to all kernel positions ... *)
Theorem C160_em_ties_positions : forall B F n K lg il ml gr o i a b a' b' r,
  conv_em_logits B F n K lg il ml gr o i a b r = conv_em_logits B F n K lg il ml gr o i a' b' r.
Proof. reflexivity. Qed.

(** ... hence (refuted) it can decrease the likelihood: 2 by 2 pixels, kernel 2, the
    row (1, 0, 0, 0) and weights that use the right channel at every position.  Whatever
    the cached log-likelihoods and gradients, the update loses. *)
Definition em_lg (_ i a b _ : nat) : R := w2 (if (Nat.eqb a 0 && Nat.eqb b 0)%bool then 9/10 else 1/10) i.
Definition em_img : cv := VMod (img 2 (9/10) (1/10)).
Definition em_row : row := fun u => if Nat.eqb u 0 then Some 1 else if Nat.ltb u 4 then Some 0 else None.

Lemma em_product lg : 
  let W f := softmax 2 (fun i => lg 0%nat i ((f / 2) mod 2)%nat ((f mod 2) mod 2)%nat 0%nat) in
  vprob (VProduct (VSumConv em_img 1 2 1 lg)) em_row 0 0 0 =
  (W 0%nat 0%nat * (9/10) + W 0%nat 1%nat * (1/10)) * ((W 1%nat 0%nat * (1/10) + W 1%nat 1%nat * (9/10)) *
  ((W 2%nat 0%nat * (1/10) + W 2%nat 1%nat * (9/10)) * (W 3%nat 0%nat * (1/10) + W 3%nat 1%nat * (9/10)))).
Proof.
  intros W. rewrite vprob_pev, vpev_product. change (features (vshape (VSumConv em_img 1 2 1 lg))) with 4%nat. cbn [seq lprod].
  rewrite !vpev_sumconv by (cbn; lia). change (channels (vshape em_img)) with 2%nat. cbn [bsum]. rewrite !nodes_bidx0.
  assert (vpev (leaf_score em_row) em_img 0 0 0 = 9/10) as -> by (apply pr_bern_1; lra).
  assert (vpev (leaf_score em_row) em_img 0 1 0 = 1/10) as -> by (apply pr_bern_1; lra).
  assert (forall f, (0 < f < 4)%nat -> vpev (leaf_score em_row) em_img f 0 0 = 1/10) as E0.
  { intros f Hf. replace (1/10) with (1 - 9/10) by lra. destruct f as [|[|[|[|f]]]]; try lia; apply pr_bern_0; lra. }
  assert (forall f, (0 < f < 4)%nat -> vpev (leaf_score em_row) em_img f 1 0 = 9/10) as E1.
  { intros f Hf. replace (9/10) with (1 - 1/10) by lra. destruct f as [|[|[|[|f]]]]; try lia; apply pr_bern_0; lra. }
  rewrite !E0, !E1 by lia. unfold W, conv_logits. change (side em_img) with 2%nat. unfold kpos. change (Nat.ltb 2 2) with false. cbv beta iota. ring.
Qed.

Theorem C160_em_monotone_refuted : forall B il ml gr,
  vprob (VProduct (VSumConv em_img 1 2 1 (conv_em_logits B 4 2 2 em_lg il ml gr))) em_row 0 0 0 <
  vprob (VProduct (VSumConv em_img 1 2 1 em_lg)) em_row 0 0 0.
Proof.
  intros B il ml gr. rewrite !em_product.
  set (lg' := conv_em_logits B 4 2 2 em_lg il ml gr).
  assert (forall a b a' b', (fun i => lg' 0%nat i a b 0%nat) = (fun i => lg' 0%nat i a' b' 0%nat)) as T by reflexivity.
  rewrite (T ((1 / 2) mod 2)%nat ((1 mod 2) mod 2)%nat ((0 / 2) mod 2)%nat ((0 mod 2) mod 2)%nat).
  rewrite (T ((2 / 2) mod 2)%nat ((2 mod 2) mod 2)%nat ((0 / 2) mod 2)%nat ((0 mod 2) mod 2)%nat).
  rewrite (T ((3 / 2) mod 2)%nat ((3 mod 2) mod 2)%nat ((0 / 2) mod 2)%nat ((0 mod 2) mod 2)%nat).
  set (p := softmax 2 (fun i => lg' 0%nat i ((0 / 2) mod 2)%nat ((0 mod 2) mod 2)%nat 0%nat)).
  assert (p 0%nat + p 1%nat = 1) as HS.
  { pose proof (softmax_sum 2 (fun i => lg' 0%nat i ((0 / 2) mod 2)%nat ((0 mod 2) mod 2)%nat 0%nat) ltac:(lia)) as S. cbn [bsum] in S. unfold p. lra. }
  set (a := p 0%nat) in *. replace (p 1%nat) with (1 - a) by lra.
  change (fun i => em_lg 0 i ((0 / 2) mod 2) ((0 mod 2) mod 2) 0) with (w2 (9/10)).
  change (fun i => em_lg 0 i ((1 / 2) mod 2) ((1 mod 2) mod 2) 0) with (w2 (1/10)).
  change (fun i => em_lg 0 i ((2 / 2) mod 2) ((2 mod 2) mod 2) 0) with (w2 (1/10)).
  change (fun i => em_lg 0 i ((3 / 2) mod 2) ((3 mod 2) mod 2) 0) with (w2 (1/10)).
  destruct (softmax_w2 (9/10) ltac:(lra)) as [-> ->]. destruct (softmax_w2 (1/10) ltac:(lra)) as [-> ->].
  set (t := a * (1/10) + (1 - a) * (9/10)). replace (a * (9/10) + (1 - a) * (1/10)) with (1 - t) by (unfold t; lra).
  assert ((1 - t) * (t * (t * t)) <= 27/256) as M.
  { assert (27/256 - (1 - t) * (t * (t * t)) = (t - 3/4) * (t - 3/4) * ((t + 1/4) * (t + 1/4) + 1/8)) as E by field.
    assert (0 <= (t - 3/4) * (t - 3/4)) by apply Rle_0_sqr. assert (0 <= (t + 1/4) * (t + 1/4)) by apply Rle_0_sqr.
    assert (0 <= (t - 3/4) * (t - 3/4) * ((t + 1/4) * (t + 1/4) + 1/8)) by (apply Rmult_le_pos; lra). lra. }
  eapply Rle_lt_trans; [exact M|]. lra.
Qed.

(** *** C161 (refuted): marginalize keeps the weights of a SumConv, at least when nothing
    is marginalised.  The result carries freshly drawn weights. *)
Definition keep : cv := VSumConv (VMod (img 1 (1/4) (3/4))) 1 1 1 (fun _ i _ _ _ => w2 (3/4) i).
Theorem C161_marginalize_weights_refuted : 
  vbuilt keep /\ ~ In 7%nat (query (vscope keep)) /\
  (forall fresh prune, vmarg fresh [7%nat] prune keep = Ok (Some (VSumConv (VMod (img 1 (1/4) (3/4))) 1 1 1 fresh))) /\
  exists fresh v, vmarg fresh [7%nat] true keep = Ok (Some v) /\
    vprob keep (fun u => if Nat.eqb u 0 then Some 1 else None) 0 0 0 = 3/8 /\ vprob v (fun u => if Nat.eqb u 0 then Some 1 else None) 0 0 0 = 5/8.
Proof.
  assert (forall a, 0 < a < 1 -> vprob (VSumConv (VMod (img 1 (1/4) (3/4))) 1 1 1 (fun _ i _ _ _ => w2 a i)) (fun u => if Nat.eqb u 0 then Some 1 else None) 0 0 0 = a * (1/4) + (1 - a) * (3/4)) as EV.
  { intros a Ha. rewrite vprob_pev, vpev_sumconv by (cbn; lia). change (channels (vshape (VMod (img 1 (1/4) (3/4))))) with 2%nat. cbn [bsum]. rewrite Rplus_0_l.
    unfold conv_logits. change (fun i => w2 a i) with (w2 a). destruct (softmax_w2 a Ha) as [-> ->]. rewrite !nodes_bidx0.
    assert (vpev (leaf_score (fun u => if Nat.eqb u 0 then Some 1 else None)) (VMod (img 1 (1/4) (3/4))) 0 0 0 = 1/4) as -> by (apply pr_bern_1; lra).
    assert (vpev (leaf_score (fun u => if Nat.eqb u 0 then Some 1 else None)) (VMod (img 1 (1/4) (3/4))) 0 1 0 = 3/4) as -> by (apply pr_bern_1; lra). ring. }
  split; [apply (vb_sumconv (VMod (img 1 (1/4) (3/4))) 1 1 1 (fun _ i _ _ _ => w2 (3/4) i)); [apply vb_mod, img_built; lia|reflexivity]|]. split; [cbn; lia|]. split; [intros fresh prune; reflexivity|].
  exists (fun _ i _ _ _ => w2 (1/4) i). eexists. split; [reflexivity|]. split; [unfold keep|]; rewrite EV; lra.
Qed.

(** *** C162 (refuted): ConvPc can marginalise any set of pixels.  Removing one pixel of
    a 2 by 2 image raises: three pixels are not a square. *)
Theorem C162_marginalize_pixel_refuted : forall ch use ls lc lroot, (1 <= ch)%nat ->
  exists v, conv_pc (img 2 (1/4) (3/4)) 2 2 ch 1 2 1 use ls lc lroot = Ok v /\ vll_shape v = Ok (mkShape 1 1 1) /\
  forall fresh prune, vmarg fresh [0%nat] prune v = Err.
Proof.
  intros ch use ls lc lroot Hc. destruct ch as [|ch]; [lia|].
  assert (ll_shape (img 2 (1/4) (3/4)) = Ok (mkShape 4 2 1)) as Lm by reflexivity.
  destruct (conv_pc_ok (img 2 (1/4) (3/4)) _ 2 (S ch) 1 2 use ls lc lroot (built_wf _ (img_built 2 _ _ ltac:(lia))) I eq_refl Lm eq_refl
    ltac:(lia) ltac:(lia) ltac:(lia) ltac:(lia) eq_refl) as (v & E & _ & _ & _ & _ & _ & Lv & _).
  assert (exists v', conv_pc (img 2 (1/4) (3/4)) 2 2 (S ch) 1 2 1 use ls lc lroot = Ok v' /\ forall fresh prune, vmarg fresh [0%nat] prune v' = Err) as (v' & E' & M).
  { destruct use; eexists; (split; [reflexivity|]); intros fresh prune; reflexivity. }
  exists v. split; [exact E|]. split; [exact Lv|]. intros fresh prune. assert (v = v') as -> by congruence. apply M.
Qed.

(** *** C163 (refuted): the patches of ConvPc are rectangles of the image.  A 4 by 16
    image (k = 2, depth 1: patches of 2 by 8) is laid out as 8 by 8, and the first patch
    is the whole first image row: pixel (1, 0) is missing, pixel (0, 15) is in. *)
Definition wide : module := MLeaf (bern (seq 0 (4 * 16)) 1 1 (fun _ _ _ => 1/2)).
Lemma wide_built : vbuilt (VProdConv (VMod wide) 2 8 0 0).
Proof.
  apply (vb_prodconv (VMod wide) 2 8 0 0); [|reflexivity]. apply vb_mod, b_leaf. apply bern_ok; try lia; [discriminate|apply seq_NoDup].
Qed.
Theorem C163_nonsquare_refuted : forall ch use ls lc lroot, (1 <= ch)%nat ->
  (exists v, conv_pc wide 4 16 ch 1 2 1 use ls lc lroot = Ok v /\ vll_shape v = Ok (mkShape 1 1 1)) /\
  fit_kernel 4 2 = 2%nat /\ fit_kernel 16 2 = 8%nat /\
  exists b, mk_prodconv (VMod wide) (fit_kernel 4 2) (fit_kernel 16 2) (fit_padding 4 2) (fit_padding 16 2) = Ok b /\
    nth 0 (vfts b) [] = seq 0 16 /\ ~ In (1 * 16 + 0)%nat (nth 0 (vfts b) []) /\ In (0 * 16 + 15)%nat (nth 0 (vfts b) []).
Proof.
  intros ch use ls lc lroot Hc. destruct ch as [|ch]; [lia|]. split; [|split; [reflexivity|split; [reflexivity|]]].
  - set (b := VProdConv (VMod wide) 2 8 0 0).
    assert (vwf b) as Wb by (exact (vbuilt_vwf _ wide_built I)).
    destruct (layer_ok use (S ch) 2 (ls 0%nat) (lc 0%nat) b (mkShape 4 1 1) 1 ltac:(lia) ltac:(lia) Wb eq_refl eq_refl eq_refl)
      as (w & Ew & Ww & Fw & _ & _ & _ & _ & Lw).
    assert (exists v, conv_pc wide 4 16 (S ch) 1 2 1 use ls lc lroot = Ok v /\ v = VSum (VProdConv w 2 2 0 0) 1 1 lroot) as (v & Ev & Vv).
    { change (features (vshape b)) with 4%nat in *.
      destruct use; eexists; (split; [reflexivity|]); injection Ew as <-; reflexivity. }
    exists v. split; [exact Ev|]. subst v. cbn [vll_shape]. rewrite Lw.
    change (side w) with (Nat.sqrt (features (vshape w))). rewrite Fw. change (features (vshape b)) with 4%nat. cbn [bind features channels repetitions negb andb]. change (Nat.sqrt 4) with 2%nat. cbn [Nat.mul Nat.add Nat.eqb Nat.leb negb andb bind channels features repetitions].
    destruct (vll_shape_spec w _ Ww Lw) as (_ & E2 & _). cbn [channels] in E2.
    assert (features (vshape (VProdConv w 2 2 0 0)) = 1%nat) as ->.
    { cbn [vshape features]. rewrite Fw. reflexivity. }
    change (channels (vshape (VProdConv w 2 2 0 0))) with (channels (vshape w)). rewrite <- E2.
    change (conv_out 2 2 0 * conv_out 2 2 0)%nat with 1%nat. rewrite !bcast_same. reflexivity.
  - eexists. split; [reflexivity|]. split; [reflexivity|]. split; [|change (In 15%nat (seq 0 16)); cbn; tauto].
    change (~ In 16%nat (seq 0 16)). rewrite in_seq. lia.
Qed.

(** ** Concrete cases meeting the hypotheses *)
Lemma vpev_pos sc v : vwf v -> (forall f c r, 0 < pev sc (vbase v) f c r) -> forall f c r, 0 < vpev sc v f c r.
Proof.
  assert (forall A (l : list A) g, (forall a, 0 < g a) -> 0 < lprod l g) as LP.
  { intros A l g H. induction l as [|a l IH]; cbn [lprod]; [lra|]. apply Rmult_lt_0_compat; auto. }
  assert (forall n q g, (0 < n)%nat -> (forall i, 0 < g i) -> 0 < bsum n (fun i => softmax n q i * g i)) as BP.
  { intros n q g Hn H. destruct n as [|n]; [lia|]. rewrite bsum_S_first.
    apply Rplus_lt_le_0_compat; [|apply bsum_nonneg; intros i _; left]; apply Rmult_lt_0_compat; auto; apply softmax_pos; lia. }
  intros W H. induction v as [m|c IH co rr lg|c IH|c IH co K rr lg|c IH kh kw ph pw]; intros f ch r; cbn [vwf vbase] in *.
  - apply H.
  - rewrite vpev_sum; [apply BP; [|intros; apply IH; tauto]|]; apply (v_cpos c (vwf_vwf1 c (proj1 W))).
  - rewrite vpev_product. apply LP. intros. apply IH; tauto.
  - rewrite vpev_sumconv; [apply BP; [|intros; apply IH; tauto]|]; apply (v_cpos c (vwf_vwf1 c (proj1 W))).
  - rewrite vpev_prodconv. apply LP. intros. apply IH; tauto.
Qed.

Lemma img_pev_pos n p0 p1 e : 0 < p0 < 1 -> 0 < p1 < 1 -> (forall u, e u = None \/ e u = Some 0 \/ e u = Some 1) ->
  forall f c r, 0 < pev (leaf_score e) (img n p0 p1) f c r.
Proof.
  intros H0 H1 He f c r. change (0 < pr (leaf_score e (bern (seq 0 (n * n)) 2 1 (fun _ c _ => if Nat.eqb c 0 then p0 else p1)) f c r)).
  unfold leaf_score. cbn [l_lp bern]. destruct (He (nth f (query (l_scope (bern (seq 0 (n * n)) 2 1 (fun _ c0 _ => if Nat.eqb c0 0 then p0 else p1)))) 0%nat)) as [-> | [-> | ->]].
  - cbn [pr]. rewrite exp_0. lra.
  - rewrite pr_bern_0; destruct (Nat.eqb c 0); lra.
  - rewrite pr_bern_1; destruct (Nat.eqb c 0); lra.
Qed.

(** C155_density with a padded image: 2 by 2 pixels, kernel 4 *)
Example C155_density_example : exists v, conv_pc (img 2 (1/4) (3/4)) 2 2 3 1 4 1 true (fun _ _ _ _ _ => 0) (fun _ _ _ _ _ _ => 1) (fun _ _ _ _ => 0) = Ok v /\
  sums_over (fun _ => bits) [0;1;2;3]%nat (fun y => vprob v y 0 0 0) (fun _ => None) 1.
Proof.
  destruct (C155_density (img 2 (1/4) (3/4)) (mkShape 4 2 1) 2 3 1 4 true (fun _ _ _ _ _ => 0) (fun _ _ _ _ _ _ => 1) (fun _ _ _ _ => 0)
    (img_built 2 _ _ ltac:(lia)) I eq_refl eq_refl eq_refl ltac:(lia) ltac:(lia) ltac:(lia) ltac:(lia) eq_refl) as (v & E & _ & _ & H).
  exists v. split; [exact E|]. destruct (H (fun _ => bits) (img_norm 2 (1/4) (3/4) ltac:(lra) ltac:(lra))) as [H1 _]. apply H1.
  - apply (seq_NoDup 4 0).
  - intros u. reflexivity.
Qed.

(** C155_sample_with_evidence: 2 by 2 pixels, kernel 2, SumConv layers, one pixel seen *)
Definition ev1 : row := fun u => if Nat.eqb u 0 then Some 1 else None.
Example C155_sample_example : forall (use : bool) ls lc lroot, exists v, conv_pc (img 2 (1/4) (3/4)) 2 2 3 1 2 1 use ls lc lroot = Ok v /\
  let y : row := fun u => if Nat.ltb u 4 then Some 1 else None in
  expects (fun _ => bits) (conv_pc_sample false 4 [ev1] v ev1) (tests (point y) [1;2;3]%nat) (vprob v y 0 0 0 / vprob v ev1 0 0 0) /\
  expects (fun _ => bits) (conv_pc_sample false 4 [fun _ => None] v (fun _ => None)) (tests (point y) [0;1;2;3]%nat) (vprob v y 0 0 0) /\
  0 < vprob v ev1 0 0 0.
Proof.
  intros use ls lc lroot. set (leaf := img 2 (1/4) (3/4)).
  destruct (conv_pc_ok leaf (mkShape 4 2 1) 2 3 1 2 use ls lc lroot (built_wf _ (img_built 2 _ _ ltac:(lia))) I eq_refl eq_refl eq_refl
    ltac:(lia) ltac:(lia) ltac:(lia) ltac:(lia) eq_refl) as (v & E & Wv & Eb & _).
  exists v. split; [exact E|]. intros y.
  assert (forall f c r, 0 < vpev (leaf_score ev1) v f c r) as HP.
  { apply vpev_pos; auto. rewrite Eb. apply img_pev_pos; try lra. intros u. unfold ev1. destruct (Nat.eqb u 0); auto. }
  assert (forall w, vwf w -> (forall f c r, 0 < pev (leaf_score ev1) (vbase w) f c r) -> sums_positive (vbase w) ev1 -> vsums_positive w ev1) as SP.
  { intros w Ww Hb Sb. assert (forall f c r, 0 < vpev (leaf_score ev1) w f c r) as H by now apply vpev_pos. revert Ww Hb Sb H.
    induction w as [m|c IH co rr lg|c IH|c IH co K rr lg|c IH kh kw ph pw]; cbn [vwf vbase vsums_positive]; intros Ww Hb Sb H; auto.
    - split; [apply IH; try tauto; apply vpev_pos; tauto|]. intros f k _ _. rewrite vprob_pev. specialize (H f k 0%nat). lra.
    - apply IH; try tauto. apply vpev_pos; tauto.
    - split; [apply IH; try tauto; apply vpev_pos; tauto|]. intros f k _ _. rewrite vprob_pev. specialize (H f k 0%nat). lra.
    - apply IH; try tauto. apply vpev_pos; tauto. }
  assert (0 < vprob v ev1 0 0 0) as HP0 by (rewrite vprob_pev; apply HP).
  assert (NoDup [0; 1]) as NB by (repeat constructor; cbn; intros C; intuition lra).
  split; [|split].
  - apply (C155_sample_with_evidence leaf (mkShape 4 2 1) 2 3 1 2 use ls lc lroot v (fun _ => [0;1]) 4 [ev1] ev1 [1;2;3]%nat y); try reflexivity; try exact I; try lia; auto.
    + apply img_built. lia.
    + intros u Hu. change (In u (seq 0 4)) in Hu. apply in_seq in Hu. lia.
    + exists ev1, 1%nat. split; [now left|]. split; [lia|reflexivity].
    + exists ev1, 0%nat. split; [now left|]. split; [lia|discriminate].
    + now left.
    + apply SP; auto; [intros f c r; specialize (HP f c r); rewrite Eb; apply img_pev_pos; try lra; intros u; unfold ev1; destruct (Nat.eqb u 0); auto|]. rewrite Eb. intros n f c Hn Hs _ _. inversion Hn; subst; try contradiction.
    + lra.
    + apply (seq_NoDup 3 1).
    + intros u. change (In u [1;2;3]%nat <-> In u [0;1;2;3]%nat /\ ev1 u = None). unfold ev1. cbn.
      split; [intros [<-|[<-|[<-|[]]]]; split; auto|]. intros [[<-|[<-|[<-|[<-|[]]]]] Hn]; auto. discriminate.
    + intros u Hu. exists 1. split; [|cbn; auto]. cbn in Hu. destruct Hu as [<-|[<-|[<-|[]]]]; reflexivity.
    + intros u Hu. unfold y, ev1. destruct u as [|[|[|[|u]]]]; cbn; auto; exfalso; apply Hu; cbn; auto.
  - apply (C155_sample leaf (mkShape 4 2 1) 2 3 1 2 use ls lc lroot v (fun _ => [0;1]) 4 [fun _ => None] (fun _ => None) [0;1;2;3]%nat y); try reflexivity; try exact I; try lia; auto.
    + apply img_built. lia.
    + intros u Hu. change (In u (seq 0 4)) in Hu. apply in_seq in Hu. lia.
    + intros z u [<-|[]] _. reflexivity.
    + now left.
    + apply (seq_NoDup 4 0).
    + intros u Hu. exists 1. split; [|cbn; auto]. cbn in Hu. destruct Hu as [<-|[<-|[<-|[<-|[]]]]]; reflexivity.
    + intros u Hu. unfold y. destruct u as [|[|[|[|u]]]]; cbn; auto; exfalso; apply Hu; cbn; auto.
  - exact HP0.
Qed.

(** C49: assigned weights 3/4, 1/4 at the even columns and 1/2, 1/2 at the odd ones *)
Definition sc_w (_ i _ b _ : nat) : R := if Nat.eqb b 0 then (if Nat.eqb i 0 then 3/4 else 1/4) else 1/2.
Example C49_example : exists v, set_conv_weights (VMod (img 2 (1/4) (3/4))) 1 2 1 1 2 2 2 1 sc_w = Ok v /\ vbuilt v /\ vll_shape v = Ok (mkShape 4 1 1) /\
  vprob v (fun _ => Some 1) 0 0 0 = 3/8 /\ vprob v (fun _ => Some 1) 1 0 0 = 1/2.
Proof.
  set (c := VMod (img 2 (1/4) (3/4))).
  destruct (C49_set_weights_accepts c 1 2 1 sc_w) as (v & E).
  { intros. unfold sc_w. destruct (Nat.eqb b 0), (Nat.eqb i 0); lra. }
  { intros o a b r _ _ _ _. change (channels (vshape c)) with 2%nat. unfold sc_w. cbn [bsum Nat.eqb]. destruct (Nat.eqb b 0); lra. }
  change (channels (vshape c)) with 2%nat in E. exists v. split; [exact E|].
  destruct (C49_set_weights _ _ _ _ _ _ _ _ _ _ _ E) as (_ & _ & _ & _ & _ & _ & lg & Ev & Hw).
  assert (vbuilt c) as Bc by (apply vb_mod, img_built; lia).
  assert (mk_sumconv c 1 2 1 lg = Ok v) as Mk by (rewrite Ev; reflexivity).
  assert (vll_shape v = Ok (mkShape 4 1 1)) as Ls by (rewrite Ev; reflexivity).
  split; [eapply vb_sumconv; eauto|]. split; [exact Ls|].
  destruct (C49_mixture c 1 2 1 lg v (fun _ => Some 1) _ Bc I Mk Ls) as [_ Mx]. change (side c) with 2%nat in Mx. change (channels (vshape c)) with 2%nat in Mx.
  assert (forall f, vprob c (fun _ => Some 1) f 0 0 = 1/4) as P0 by (intros f; apply pr_bern_1; lra).
  assert (forall f, vprob c (fun _ => Some 1) f 1 0 = 3/4) as P1 by (intros f; apply pr_bern_1; lra).
  split.
  - specialize (Mx 0%nat 0%nat 0%nat 0%nat ltac:(lia) ltac:(lia)). cbn [Nat.mul Nat.add] in Mx. rewrite Mx. change (Nat.ltb 2 2) with false. cbv iota.
    change (0 mod 2)%nat with 0%nat. cbn [bsum]. change (bidx 1 0) with 0%nat. change (bidx (vll_reps c) 0) with 0%nat. rewrite P0, P1, !Hw by lia. cbn [bsum]. unfold sc_w. cbn [Nat.eqb]. lra.
  - specialize (Mx 0%nat 1%nat 0%nat 0%nat ltac:(lia) ltac:(lia)). cbn [Nat.mul Nat.add] in Mx. rewrite Mx. change (Nat.ltb 2 2) with false. cbv iota.
    change (0 mod 2)%nat with 0%nat. change (1 mod 2)%nat with 1%nat. cbn [bsum]. change (bidx 1 0) with 0%nat. change (bidx (vll_reps c) 0) with 0%nat. rewrite P0, P1, !Hw by lia. cbn [bsum]. unfold sc_w. cbn [Nat.eqb]. lra.
Qed.

(** C50: two by two windows of a 4 by 4 image *)
Example C50_example : exists v, mk_prodconv (VMod (img 4 (1/4) (3/4))) 2 2 0 0 = Ok v /\ vbuilt v /\ covered v /\ exact_fit v /\
  vll_shape v = Ok (mkShape 4 2 1) /\ nth 3 (vfts v) [] = [10; 11; 14; 15]%nat /\
  sums_over (fun _ => bits) [10;11;14;15]%nat (fun y => vprob v y 3 1 0) (fun _ => None) 1.
Proof.
  set (v := VProdConv (VMod (img 4 (1/4) (3/4))) 2 2 0 0). exists v. split; [reflexivity|].
  assert (vbuilt v) as B by (apply (vb_prodconv (VMod (img 4 (1/4) (3/4))) 2 2 0 0 v); [apply vb_mod, img_built; lia|reflexivity]).
  assert (nth 3 (vfts v) [] = [10; 11; 14; 15]%nat) as Ef by reflexivity.
  split; [exact B|]. split; [cbn; change (conv_out 4 2 0) with 2%nat; repeat split; lia|]. split; [cbn; auto|]. split; [reflexivity|]. split; [exact Ef|].
  apply (C50_normalised (fun _ => bits) v (mkShape 4 2 1)); auto.
  - exact I.
  - apply img_norm; lra.
  - repeat split; cbn; lia.
  - repeat constructor; cbn; lia.
  - intros u. rewrite Ef. reflexivity.
Qed.

Example C156_example : ~ fits 3 (2 ^ 1) /\ fits 3 (3 ^ 2) /\ fits 28 (2 ^ 2).
Proof. repeat split; try reflexivity. discriminate. Qed.

Print Assumptions C49_weights.
Print Assumptions C49_mixture.
Print Assumptions C49_set_weights.
Print Assumptions C49_set_weights_accepts.
Print Assumptions C50_window_product.
Print Assumptions C50_feature_scope.
Print Assumptions C50_partition.
Print Assumptions C50_normalised.
Print Assumptions C50_marginal.
Print Assumptions C50_scope.
Print Assumptions C154_sample.
Print Assumptions C154_sample_with_evidence.
Print Assumptions C154_sample_finite.
Print Assumptions C154_sample_with_evidence_finite.
Print Assumptions C155_density.
Print Assumptions C155_sample.
Print Assumptions C155_sample_with_evidence.
Print Assumptions C156_odd_padding_refuted.
Print Assumptions C157_padding_sampler_refuted.
Print Assumptions C158_dropped_pixels_refuted.
Print Assumptions C159_small_image_sampling_refuted.
Print Assumptions C160_em_ties_positions.
Print Assumptions C160_em_monotone_refuted.
Print Assumptions C161_marginalize_weights_refuted.
Print Assumptions C162_marginalize_pixel_refuted.
Print Assumptions C163_nonsquare_refuted.
