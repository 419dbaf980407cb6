(** Compiled continuous mixtures. *)
From Coq Require Import List Arith ZArith Bool Reals Lia Lra.
From Verif Require Import Base ScopeModel ScopeProofs CircuitModel CircuitSpec CircuitBasics CircuitEval Integral CircuitMarg CircuitProps MargProofs
  LeafModel LeafSpec LeafProofs LeafNorm LeafTop SampleModel LearnProofs LearnTop LearnMain PromMain CltModel PruneSpec CmsModel CmsSpec.
Import ListNotations.
Local Open Scope R_scope.

(** *** lists of results *)
Lemma mapr_ok {A B} (f : A -> result B) (g : A -> B) l : (forall a, In a l -> f a = Ok (g a)) -> mapr f l = Ok (map g l).
Proof.
  induction l as [|a l IH]; intros H; [reflexivity|]. cbn [mapr map]. rewrite (H a) by now left. cbn [bind].
  rewrite IH by (intros b Hb; apply H; now right). reflexivity.
Qed.
Lemma mapr_err {A B} (f : A -> result B) l a : In a l -> f a = Err -> mapr f l = Err.
Proof.
  induction l as [|b l IH]; intros [] E.
  - subst. cbn [mapr]. now rewrite E.
  - cbn [mapr]. destruct (f b); cbn [bind]; [|reflexivity]. now rewrite IH.
Qed.

Lemma uniform_reps n m : built m -> uniform n m -> repetitions (out_shape m) = n.
Proof. intros B U. apply (uniform_ll m n (built_wf m B) U). Qed.

(** *** one component *)
Definition fam_of (fm : family) (F : nat) (out : nat -> R) (j : nat) : fam :=
  match fm with
  | Bern => FBernoulli (out j)
  | Catg None => FBernoulli 0
  | Catg (Some K) => FCategorical K (fun k => out (j * K + k)%nat)
  | Gauss eps => FNormal (out j) (ln (softplus (out (F + j)%nat) + eps))
  end.
Lemma comp_fam_ok fm F out j : fm <> Catg None -> comp_fam fm F out j = Ok (fam_of fm F out j).
Proof. destruct fm as [|[K|]|eps]; try reflexivity. congruence. Qed.
Definition fleaf_at (fm : family) (F : nat) (out : nat -> R) (j : nat) : fleaf :=
  mk_fleaf (mkScope [j] []) 1 1 (fun _ _ _ => fam_of fm F out j).
Definition leaf_at mode fm F out j : leaf :=
  fl_leaf (fleaf_at fm F out j) (fun f c r => mode (fl_fam (fleaf_at fm F out j) f c r)).

Lemma leaf_at_okb mode fm F out j : leaf_okb (leaf_at mode fm F out j) = true.
Proof. unfold leaf_okb, leaf_at. cbn. reflexivity. Qed.

Definition feat_prob (fm : family) (F : nat) (out : nat -> R) (f : nat) (o : option R) : R :=
  match o with None => 1 | Some a => pr (fam_lp (fam_of fm F out f) a) end.

Lemma pev_leaf_at mode fm F out j x : pev (leaf_score x) (MLeaf (leaf_at mode fm F out j)) 0 0 0 = feat_prob fm F out j (x j).
Proof.
  unfold pev. cbn [evalm]. unfold leaf_score, leaf_at. cbn. unfold feat_prob. destruct (x j); [reflexivity|]. cbn. apply exp_0.
Qed.

Lemma leaf_good mode fm F out j : good 1 [j] (MProduct (MLeaf (leaf_at mode fm F out j))).
Proof.
  assert (B : built (MLeaf (leaf_at mode fm F out j))) by (constructor; apply leaf_at_okb).
  constructor.
  - apply (b_product [MLeaf (leaf_at mode fm F out j)]); [now constructor|reflexivity].
  - exact I.
  - reflexivity.
  - reflexivity.
  - reflexivity.
  - intros v. cbn. tauto.
  - cbn. lia.
  - apply one_other. discriminate.
  - discriminate.
  - apply mixes_product, mixes_leaf.
Qed.

Lemma component_good mode fm F out : fm <> Catg None -> (1 <= F)%nat ->
  exists m, component mode fm F out = Ok m /\ good 1 (seq 0 F) m /\ channels (out_shape m) = 1%nat /\
    leaves_of m = map (leaf_at mode fm F out) (seq 0 F) /\
    forall x, pev (leaf_score x) m 0 0 0 = bprod F (fun f => feat_prob fm F out f (x f)).
Proof.
  intros NC HF. unfold component.
  rewrite (mapr_ok _ (fleaf_at fm F out)) by (intros j _; unfold comp_leaf; now rewrite comp_fam_ok by assumption).
  cbn [bind]. rewrite map_map.
  change (map (fun j => MLeaf (fl_leaf (fleaf_at fm F out j) (fun f c r => mode (fl_fam (fleaf_at fm F out j) f c r)))) (seq 0 F))
    with (map (fun j => MLeaf (leaf_at mode fm F out j)) (seq 0 F)).
  set (ms := map (fun j => MLeaf (leaf_at mode fm F out j)) (seq 0 F)).
  assert (LM : length ms = F) by (unfold ms; now rewrite map_length, seq_length).
  assert (LV : forall m, mk_product ms = Ok m -> leaves_of m = map (leaf_at mode fm F out) (seq 0 F)).
  { intros m E. rewrite (mk_product_leaves _ _ E). unfold ms. rewrite map_map. clear. induction (seq 0 F) as [|a l IH]; [reflexivity|].
    cbn [map concat]. rewrite IH. reflexivity. }
  destruct (Nat.eq_dec F 1) as [->|F2].
  - exists (MProduct (MLeaf (leaf_at mode fm 1 out 0))). split; [reflexivity|]. split; [apply leaf_good|]. split; [reflexivity|].
    split; [reflexivity|]. intros x. rewrite pev_product. cbn [out_shape features leaf_at fl_leaf l_scope fleaf_at mk_fleaf fl_scope query length bprod].
    now rewrite pev_leaf_at.
  - destruct (good_product 1 (seq 0 F) ms) as (m & E & G & C).
    + lia.
    + lia.
    + apply Forall_forall. intros m Hm. unfold ms in Hm. apply in_map_iff in Hm. destruct Hm as (j & <- & _).
      split; [constructor; apply leaf_at_okb|]. split; [exact I|]. split; [reflexivity|]. split; [reflexivity|]. split; [reflexivity|]. apply mixes_leaf.
    + unfold ms. clear. assert (N : NoDup (seq 0 F)) by apply seq_NoDup. revert N. generalize (seq 0 F). intros l N.
      induction N as [|a l Ha N IH]; [constructor|]. constructor; [|exact IH]. apply Forall_forall. intros m Hm. apply in_map_iff in Hm.
      destruct Hm as (b & <- & Hb). cbn. intros v [<-|[]] [->|[]]. contradiction.
    + intros v. split.
      * intros Hv. exists (MLeaf (leaf_at mode fm F out v)). split; [unfold ms; now apply (in_map (fun j => MLeaf (leaf_at mode fm F out j)))|]. cbn. now left.
      * intros (m & Hm & Hv). unfold ms in Hm. apply in_map_iff in Hm. destruct Hm as (j & <- & Hj). cbn in Hv. destruct Hv as [<-|[]]. exact Hj.
    + exists m. split; [exact E|]. split; [exact G|]. split; [exact C|]. split; [exact (LV m E)|].
      intros x. rewrite (pev_mk_product ms m E) with (d := MLeaf (leaf_at mode fm F out 0)).
      * rewrite LM. apply bprod_ext. intros i Hi. unfold ms.
        rewrite (map_nth (fun j => MLeaf (leaf_at mode fm F out j)) (seq 0 F) 0%nat). rewrite seq_nth by assumption. apply pev_leaf_at.
      * lia.
      * apply Forall_forall. intros c Hc. unfold ms in Hc. apply in_map_iff in Hc. destruct Hc as (j & <- & _). reflexivity.
Qed.

(** *** the mixture *)
Lemma rlt_true a b : rlt a b = true <-> a < b.
Proof. unfold rlt. destruct (Rlt_dec a b); split; intros; try assumption; try reflexivity; try discriminate; contradiction. Qed.
Lemma rle_true a b : rle a b = true <-> a <= b.
Proof. unfold rle. destruct (Rle_dec a b); split; intros; try assumption; try reflexivity; try discriminate; contradiction. Qed.

Lemma broadcast_spec n w F : (forall i, (i < n)%nat -> 0 < w i) -> Rabs (bsum n w - 1) <= / 10 ^ 6 ->
  broadcast_weights n w F = Ok (mkW F n 1 1 (fun _ i _ _ => w i)).
Proof.
  intros P S. unfold broadcast_weights. assert (allb n (fun i => rlt 0 (w i)) = true) as ->.
  { apply allb_true. intros i Hi. now apply rlt_true, P. }
  cbn [negb]. unfold sum_close. assert (rle (Rabs (bsum n w - 1)) (/ 10 ^ 6) = true) as -> by now apply rle_true. reflexivity.
Qed.
Lemma broadcast_inv n w F wt : broadcast_weights n w F = Ok wt -> (forall i, (i < n)%nat -> 0 < w i) /\ Rabs (bsum n w - 1) <= / 10 ^ 6.
Proof.
  unfold broadcast_weights. destruct (allb n _) eqn:E; cbn [negb]; [|discriminate]. destruct (sum_close _) eqn:E2; cbn [negb]; [|discriminate].
  intros _. split; [|now apply rle_true]. intros i Hi. rewrite allb_true in E. now apply rlt_true, E.
Qed.

Lemma nsum_ones {A} (f : A -> nat) l : Forall (fun a => f a = 1%nat) l -> nsum (map f l) = length l.
Proof. induction 1 as [|a l H _ IH]; [reflexivity|]. cbn [map nsum length]. now rewrite H, IH. Qed.

Lemma softmax_scaled n (p : nat -> R) i : (i < n)%nat -> (forall j, (j < n)%nat -> 0 < p j) ->
  softmax n (fun j => ln (p j)) i = p i / bsum n p.
Proof.
  intros Hi HP. unfold softmax. rewrite (bsum_ext n _ p) by (intros j Hj; apply exp_ln; auto). rewrite exp_ln by auto. reflexivity.
Qed.

(** what compile_factorized returns *)
Lemma compile_ok mode fm F n out w : fm <> Catg None -> (1 <= F)%nat -> (1 <= n)%nat ->
  (forall i, (i < n)%nat -> 0 < w i) -> Rabs (bsum n w - 1) <= / 10 ^ 6 ->
  exists m, compile_factorized mode fm F n out w = Ok m /\ built m /\ aligned m /\ uniform 1 m /\
    out_shape m = mkShape 1 1 1 /\ (forall v, In v (query (scope_of m)) <-> In v (seq 0 F)) /\
    (forall l, In l (leaves_of m) -> exists i j, (i < n)%nat /\ (j < F)%nat /\ l = leaf_at mode fm F (out i) j) /\
    (forall i j, (i < n)%nat -> (j < F)%nat -> In (leaf_at mode fm F (out i) j) (leaves_of m)) /\
    forall x, prob m x 0 0 0 = bsum n (fun i => w i / bsum n w * bprod F (fun f => feat_prob fm F (out i) f (x f))).
Proof.
  intros NC HF Hn WP WS.
  assert (EX : forall i, exists m, component mode fm F (out i) = Ok m /\ good 1 (seq 0 F) m /\ channels (out_shape m) = 1%nat /\
    leaves_of m = map (leaf_at mode fm F (out i)) (seq 0 F) /\
    forall x, pev (leaf_score x) m 0 0 0 = bprod F (fun f => feat_prob fm F (out i) f (x f))) by (intros i; now apply component_good).
  set (cm := fun i => match component mode fm F (out i) with Ok m => m | Err => MLeaf (leaf_at mode fm F (out i) 0) end).
  assert (CM : forall i, component mode fm F (out i) = Ok (cm i) /\ good 1 (seq 0 F) (cm i) /\ channels (out_shape (cm i)) = 1%nat /\
    leaves_of (cm i) = map (leaf_at mode fm F (out i)) (seq 0 F) /\
    forall x, pev (leaf_score x) (cm i) 0 0 0 = bprod F (fun f => feat_prob fm F (out i) f (x f))).
  { intros i. unfold cm. destruct (EX i) as (m & E & R). rewrite E. auto. }
  clear EX. clearbody cm.
  unfold compile_factorized. rewrite (mapr_ok _ cm) by (intros i _; apply CM). cbn [bind].
  set (cs := map cm (seq 0 n)).
  assert (LC : length cs = n) by (unfold cs; now rewrite map_length, seq_length).
  assert (GC : Forall (good 1 (seq 0 F)) cs).
  { unfold cs. apply Forall_forall. intros m Hm. apply in_map_iff in Hm. destruct Hm as (i & <- & _). apply CM. }
  assert (OC : Forall (fun m => channels (out_shape m) = 1%nat) cs).
  { unfold cs. apply Forall_forall. intros m Hm. apply in_map_iff in Hm. destruct Hm as (i & <- & _). apply CM. }
  assert (NE : cs <> []) by (intros E; rewrite E in LC; cbn in LC; lia).
  assert (SI : exists c, sum_inputs cs = Ok c /\ built c /\ aligned c /\ uniform 1 c /\ features (out_shape c) = 1%nat /\
     channels (out_shape c) = n /\ repetitions (out_shape c) = 1%nat /\ (forall v, In v (query (scope_of c)) <-> In v (seq 0 F)) /\
     forall x i, (i < n)%nat -> pev (leaf_score x) c 0 i 0 = pev (leaf_score x) (cm i) 0 0 0).
  { destruct cs as [|c0 [|c1 cs']] eqn:EC; [congruence| |].
    - exists c0. cbn in LC. assert (n = 1%nat) as -> by lia. unfold cs in EC. cbn in EC. injection EC as <-.
      destruct (CM 0%nat) as (_ & G & C & _). split; [reflexivity|]. split; [apply G|]. split; [apply G|]. split; [apply G|]. split; [apply G|]. split; [exact C|].
      split.
      { exact (uniform_reps 1 _ (g_built _ _ _ G) (g_un _ _ _ G)). }
      split; [apply G|]. intros x i Hi. assert (i = 0%nat) as -> by lia. reflexivity.
    - rewrite <- EC in *. destruct (good_cat (seq 0 F) 1 cs NE GC) as (sc & E & B & A & U & FE & EV & V & _ & CH).
      exists (MCat true sc cs). split; [rewrite EC in *; exact E|]. split; [exact B|]. split; [exact A|]. split; [exact U|]. split; [exact FE|].
      split; [rewrite CH, nsum_ones by assumption; exact LC|].
      split; [exact (uniform_reps 1 _ B U)|]. split; [exact V|]. intros x i Hi.
      rewrite (cat_singles (leaf_score x) sc cs i OC) with (d := cm 0%nat) by lia. unfold cs. rewrite (map_nth cm (seq 0 n) 0%nat), seq_nth by assumption. reflexivity. }
  destruct SI as (c & ES & B & A & U & FE & CH & RE & V & PV).
  assert (F0 : features (out_shape (hd (cm 0%nat) cs)) = 1%nat).
  { destruct cs as [|c0 cs']; [congruence|]. cbn. inversion GC; subst. apply g_feat with (1 := H1). }
  assert (SWF : match cs with [] => Err | c0 :: _ => bind (broadcast_weights n w (features (out_shape c0))) (fun wt => bind (sum_inputs cs) (fun c => mk_sum_w c 1 1 (W4 wt))) end
     = Ok (MSum c 1 1 (fun f i o r => ln (w i)))).
  { assert (bind (broadcast_weights n w 1) (fun wt => bind (sum_inputs cs) (fun c => mk_sum_w c 1 1 (W4 wt))) = Ok (MSum c 1 1 (fun f i o r => ln (w i)))) as K.
    { rewrite broadcast_spec by assumption. cbn [bind]. rewrite ES. cbn [bind]. unfold mk_sum_w. cbn [norm_warg wR wO Nat.eqb negb andb Nat.ltb Nat.leb].
      unfold set_weights. assert (weights_shape_ok (mkW 1 n 1 1 (fun _ i _ _ => w i)) (features (out_shape c)) (channels (out_shape c)) 1 1 = true) as ->.
      { unfold weights_shape_ok. cbn [wF wI wO wR]. rewrite FE, CH, !Nat.eqb_refl. reflexivity. }
      cbn [negb]. assert (weights_pos (mkW 1 n 1 1 (fun _ i _ _ => w i)) = true) as ->.
      { unfold weights_pos. cbn [wF wI wO wR wv]. apply allb_true. intros f _. apply allb_true. intros i Hi. apply allb_true. intros o _. apply allb_true. intros r _.
        now apply rlt_true, WP. }
      cbn [negb]. assert (weights_sum1 (mkW 1 n 1 1 (fun _ i _ _ => w i)) = true) as ->; [|reflexivity].
      unfold weights_sum1. cbn [wF wI wO wR wv]. apply allb_true. intros f _. apply allb_true. intros o _. apply allb_true. intros r _.
      unfold close1. apply rle_true. apply Rle_trans with (1 := WS). 
      apply Rle_trans with (/ 10 ^ 5).
      - apply Rinv_le_contravar; [apply pow_lt; lra|]. apply Rle_pow; [lra|lia].
      - assert (0 < / 10 ^ 8) by (apply Rinv_0_lt_compat, pow_lt; lra). lra. }
    destruct cs as [|c0 cs'] eqn:EC; [congruence|]. cbn [hd] in F0. rewrite F0. exact K. }
  exists (MSum c 1 1 (fun f i o r => ln (w i))).
  assert (BM : built (MSum c 1 1 (fun f i o r => ln (w i)))).
  { assert (exists wt, mk_sum_w c 1 1 (W4 wt) = Ok (MSum c 1 1 (fun f i o r => ln (w i)))) as (wt & EW).
    { destruct cs as [|c0 cs']; [congruence|]. destruct (broadcast_weights n w (features (out_shape c0))) as [wt|]; cbn [bind] in SWF; [|discriminate].
      rewrite ES in SWF. cbn [bind] in SWF. eauto. }
    exact (b_sum_w c 1 1 (W4 wt) _ B EW). }
  assert (LV : leaves_of (MSum c 1 1 (fun f i o r => ln (w i))) = concat (map leaves_of cs)) by (cbn [leaves_of]; now apply sum_inputs_leaves).
  split; [exact SWF|]. split; [exact BM|]. split; [exact A|]. split; [split; [exact U|reflexivity]|].
  split; [cbn [out_shape]; now rewrite FE|]. split; [exact V|]. rewrite LV. split; [|split].
  - intros l Hl. apply in_concat in Hl. destruct Hl as (ls & Hls & Hl). apply in_map_iff in Hls. destruct Hls as (m & <- & Hm).
    unfold cs in Hm. apply in_map_iff in Hm. destruct Hm as (i & <- & Hi). apply in_seq in Hi. destruct (CM i) as (_ & _ & _ & L & _). rewrite L in Hl.
    apply in_map_iff in Hl. destruct Hl as (j & <- & Hj). apply in_seq in Hj. exists i, j. repeat split; lia.
  - intros i j Hi Hj. apply in_concat. exists (leaves_of (cm i)). split.
    + apply in_map. unfold cs. apply in_map. apply in_seq. lia.
    + destruct (CM i) as (_ & _ & _ & L & _). rewrite L. apply in_map. apply in_seq. lia.
  - intros x. change (prob (MSum c 1 1 (fun _ i _ _ => ln (w i))) x 0 0 0) with (pev (leaf_score x) (MSum c 1 1 (fun _ i _ _ => ln (w i))) 0 0 0).
    rewrite pev_sum by lia. rewrite CH. apply bsum_ext. intros i Hi. rewrite softmax_scaled by assumption.
    assert (bidx (ll_reps c) 0 = 0%nat) as -> by (unfold bidx; destruct (Nat.eqb _ _); reflexivity).
    rewrite PV by assumption. f_equal. apply CM.
Qed.
