(** Hidden Chow-Liu tree circuits: construction, distribution, latent tree formula. *)
From Coq Require Import List Arith ZArith Bool Reals Lia Lra Permutation FunctionalExtensionality.
From Verif Require MargProofs LeafTop.
From Verif Require Import Base ScopeModel ScopeProofs CircuitModel CircuitEval Integral SampleSpec SampleExp ConvProofs LayerModel LayerSpec LayerProofs
  CltModel CltSpec CltElim CltTop MstModel MstSpec MstUf MstKruskal MstTop HcltMiModel HcltModel HcltTree HcltProofs.
Import ListNotations.
Local Open Scope R_scope.

Lemma rlt_pos x : 0 < x -> rlt 0 x = true.
Proof. unfold rlt. destruct (Rlt_dec 0 x); [reflexivity|contradiction]. Qed.
Lemma allb_intro n p : (forall i, (i < n)%nat -> p i = true) -> allb n p = true.
Proof. intros E. unfold allb. apply forallb_forall. intros i Hi. apply in_seq in Hi. apply E. lia. Qed.
Lemma mk_hsum_w_ok v c no w : (1 <= no)%nat -> (forall i o, (i < hch c)%nat -> (o < no)%nat -> 0 < w i o) -> (forall o, (o < no)%nat -> bsum (hch c) (fun i => w i o) = 1) ->
  mk_hsum_w v c (hch c) no w = Ok (HSum v no (fun i o => ln (w i o)) c).
Proof.
  intros Hn Hp Hs. unfold mk_hsum_w. replace (Nat.ltb no 1) with false by (symmetry; apply Nat.ltb_ge; lia). rewrite Nat.eqb_refl. cbn [negb].
  rewrite allb_intro; [|intros i Hi; apply allb_intro; intros o Ho; apply rlt_pos, Hp; assumption]. cbn [negb].
  rewrite allb_intro; [reflexivity|]. intros o Ho. rewrite Hs by exact Ho. apply MargProofs.close1_1.
Qed.
Lemma uniform_sum H : (1 <= H)%nat -> bsum H (fun _ => 1 / INR H) = 1.
Proof. intros HH. rewrite bsum_const. field. apply not_0_INR. lia. Qed.
Definition raw (rnd : nat -> nat -> R) (i : nat) : R := rnd i 0%nat + / 10 ^ 8.
Lemma raw_sum n rnd : (1 <= n)%nat -> (forall i o, 0 <= rnd i o) -> (forall i, 0 < raw rnd i) /\ 0 < bsum n (raw rnd) /\ bsum n (fun i => raw rnd i / bsum n (raw rnd)) = 1.
Proof.
  intros Hn HR. assert (P : forall i, 0 < raw rnd i) by (intros i; unfold raw; pose proof (HR i 0%nat); assert (0 < / 10 ^ 8) by (apply Rinv_0_lt_compat; lra); lra).
  assert (Z : 0 < bsum n (raw rnd)) by (apply bsum_pos; [lia|intros; apply P]). split; [exact P|]. split; [exact Z|]. rewrite (bsum_div n (bsum n (raw rnd)) (raw rnd)). field. lra.
Qed.

(** the initial logits of the sum over the states of node [v] *)
Definition init_logits (H : nat) (init : hinit) (v i o : nat) : R :=
  match init with Uniform => ln (1 / INR H) | Random rnd => ln (raw (rnd v) i / bsum H (raw (rnd v))) end.
Definition init_oc (H : nat) (init : hinit) : nat := match init with Uniform => H | Random _ => 1%nat end.
Definition init_ok (init : hinit) : Prop := match init with Uniform => True | Random rnd => forall v i o, 0 <= rnd v i o end.
Lemma init_oc_ok H init : (init_oc H init = 1 \/ init_oc H init = H)%nat.
Proof. destruct init; cbn; auto. Qed.
Lemma transition_ok H init c sub : (1 <= H)%nat -> init_ok init -> hch sub = H -> transition H init c sub = Ok (HSum c (init_oc H init) (init_logits H init c) sub).
Proof.
  intros HH HI HC. destruct init as [|rnd]; cbn [transition init_oc init_logits].
  - replace (mk_hsum_w c sub H H (uniform_w H)) with (mk_hsum_w c sub (hch sub) H (uniform_w H)) by now rewrite HC. rewrite mk_hsum_w_ok; [reflexivity|exact HH| |].
    + intros i o _ _. unfold uniform_w. apply Rdiv_lt_0_compat; [lra|apply lt_0_INR; lia].
    + intros o _. rewrite HC. now apply uniform_sum.
  - unfold mk_hsum_rand. destruct (raw_sum H (rnd c) HH (HI c)) as (P & Z & S1). rewrite mk_hsum_w_ok; [rewrite HC; reflexivity|lia| |].
    + intros i o _ _. rewrite HC. apply Rdiv_lt_0_compat; [apply P|exact Z].
    + intros o _. rewrite HC. exact S1.
Qed.
Lemma root_ok H init sub : (1 <= H)%nat -> init_ok init -> hch sub = H ->
  match init with Uniform => mk_hsum_w 0 sub H 1 (uniform_w H) | Random rnd => mk_hsum_rand 0 sub (rnd 0%nat) end = Ok (HSum 0 1 (init_logits H init 0) sub).
Proof.
  intros HH HI HC. destruct init as [|rnd]; [|apply (transition_ok H (Random rnd) 0%nat sub HH HI HC)].
  replace (mk_hsum_w 0 sub H 1 (uniform_w H)) with (mk_hsum_w 0 sub (hch sub) 1 (uniform_w H)) by now rewrite HC. rewrite mk_hsum_w_ok; [reflexivity|lia| |].
  - intros i o _ _. unfold uniform_w. apply Rdiv_lt_0_compat; [lra|apply lt_0_INR; lia].
  - intros o _. rewrite HC. now apply uniform_sum.
Qed.

Lemma pairwise_disj_intro l : blocks_disj l -> pairwise_disj l = true.
Proof.
  induction l as [|b l IH]; intros HD; [reflexivity|]. destruct HD as [H1 H2]. cbn [pairwise_disj]. rewrite IH by exact H2. rewrite andb_true_r. apply forallb_forall. intros c Hc.
  rewrite Forall_forall in H1. apply disjb_spec. now apply H1.
Qed.
Lemma mk_mul_ok H oc (e : hmod) (l : list hmod) : (1 <= H)%nat -> (oc = 1 \/ oc = H)%nat -> hch e = H -> (forall m, In m l -> hch m = oc) -> blocks_disj (map hvars (e :: l)) -> mk_mul (e :: l) = Ok (HMul (e :: l)).
Proof.
  intros HH HO HE HL HD. unfold mk_mul. rewrite pairwise_disj_intro by exact HD. cbn [negb].
  assert (MX : list_max (map hch (e :: l)) = H) by (cbn [map]; rewrite HE; now apply (list_max_chan H oc)).
  rewrite MX.
  assert (CH : forall m, In m (e :: l) -> hch m = 1%nat \/ hch m = H) by (intros m [<-|Hm]; [now right|rewrite (HL m Hm); destruct HO; auto]).
  replace (forallb _ (e :: l)) with true.
  2:{ symmetry. apply forallb_forall. intros m Hm. destruct (CH m Hm) as [->| ->]; rewrite Nat.eqb_refl; [reflexivity|apply orb_true_r]. }
  cbn [negb]. replace (ew_check _) with true; [reflexivity|]. symmetry. unfold ew_check. cbn zeta.
  destruct HO as [-> | ->].
  - assert (E : filter (fun n => negb (Nat.eqb n 1)) (map snd (map (fun m => (1%nat, hch m)) l)) = []).
    { clear -HL. induction l as [|m l IH]; [reflexivity|]. cbn [map filter snd]. rewrite (HL m) by now left. cbn. apply IH. intros; apply HL; now right. }
    assert (E1 : filter (fun n => negb (Nat.eqb n 1)) (map fst (map (fun m => (1%nat, hch m)) (e :: l))) = []).
    { clear. induction (e :: l) as [|m k IH]; [reflexivity|]. cbn [map filter fst]. exact IH. }
    apply orb_true_iff. right. rewrite E1. cbn [length Nat.leb andb map filter snd]. rewrite E. destruct (negb (Nat.eqb (hch e) 1)); reflexivity.
  - apply orb_true_iff. left. apply orb_true_iff. left. apply orb_true_iff. left. apply forallb_forall. intros s Hs. apply in_map_iff in Hs. destruct Hs as (m & <- & Hm). cbn [map hd fst snd].
    rewrite HE. destruct Hm as [<-|Hm]; [rewrite HE|rewrite (HL m Hm)]; now rewrite !Nat.eqb_refl.
Qed.

Section Tree.
Context (f : nat) (T : list (nat * nat)) (HT : tree f T) (par dep : nat -> nat) (D0 : dep 0%nat = 0%nat)
  (HP : forall v, (0 < v < f)%nat -> (par v < f)%nat /\ edge T (par v) v /\ dep v = S (dep (par v)))
  (HE : forall u v, edge T u v -> ((0 < u)%nat /\ par u = v) \/ ((0 < v)%nat /\ par v = u)).
Context (H : nat) (HH : (1 <= H)%nat).
Let ptv := pt par.
Lemma f_pos : (0 < f)%nat.
Proof. exact (tree_pos f T HT). Qed.

Section OneBuild.
Context (em : nat -> nat -> row -> lval) (init : hinit) (HI : init_ok init).
Let oc := init_oc H init.
Let tr := init_logits H init.
Lemma build_sub k : forall v, (v < f)%nat -> (f <= dep v + k)%nat -> build_subtree T H em init k v (ptv v) = Ok (hs T H em tr oc k v (ptv v)).
Proof.
  induction k as [|k IH]; intros v Hv Hk.
  - pose proof (dep_lt f T f_pos par dep D0 HP v Hv). lia.
  - cbn [build_subtree hs].
    match goal with |- bind (?go _) _ = _ => set (g := go) end.
    assert (EG : forall l, incl (filter (not_parent (ptv v)) l) (kids T v (ptv v)) -> g l = Ok (map (fun c => HSum c oc (tr c) (hs T H em tr oc k c (Some v))) (filter (not_parent (ptv v)) l))).
    { induction l as [|c l IHl]; intros I; [reflexivity|]. cbn [filter] in *. change (g (c :: l)) with (if not_parent (ptv v) c then bind (build_subtree T H em init k c (Some v)) (fun sub => bind (transition H init c sub) (fun t => bind (g l) (fun r => Ok (t :: r)))) else g l).
      destruct (not_parent (ptv v) c); [|now apply IHl].
      assert (Hc : In c (kids T v (ptv v))) by (apply I; now left). pose proof (kids_pt f T HT par dep D0 HP HE H HH v c Hc Hv) as EP. apply (kids_In f T HT par dep D0 HP HE H HH v c Hv) in Hc. destruct Hc as [Lc Pc].
      destruct (HP c Lc) as (_ & _ & DC). rewrite Pc in DC. rewrite EP. fold ptv. rewrite IH by lia. cbn [bind]. rewrite (transition_ok H init c _ HH HI) by (apply hs_ch; [apply init_oc_ok|exact HH]). cbn [bind].
      rewrite IHl by (intros u Hu; apply I; now right). cbn [bind map]. unfold ptv. rewrite <- EP. reflexivity. }
    rewrite (EG (adjacent T v)) by apply incl_refl. cbn [bind]. fold (kids T v (ptv v)). destruct (kids T v (ptv v)) as [|c cs] eqn:EK; [reflexivity|].
    cbn [map]. rewrite (mk_mul_ok H oc); [reflexivity|exact HH|apply init_oc_ok|reflexivity| |].
    + intros m Hm. change (In m (map (fun c => HSum c oc (tr c) (hs T H em tr oc k c (Some v))) (c :: cs))) in Hm. apply in_map_iff in Hm. destruct Hm as (d & <- & _). reflexivity.
    + change (blocks_disj ([v] :: map hvars (map (fun c => HSum c oc (tr c) (hs T H em tr oc k c (Some v))) (c :: cs)))). rewrite <- EK.
      assert (EM : map hvars (map (fun c => HSum c oc (tr c) (hs T H em tr oc k c (Some v))) (kids T v (ptv v))) = map (fun c => ord T k c (pt par c)) (kids T v (ptv v))).
      { rewrite map_map. apply map_ext_in. intros d Hd. cbn [hvars]. rewrite hs_vars. f_equal. now apply (kids_pt f T HT par dep D0 HP HE H HH). }
      rewrite EM. split; [|now apply (kids_blocks f T HT par dep D0 HP HE H HH)]. apply Forall_forall. intros b Hb. apply in_map_iff in Hb. destruct Hb as (d & <- & Hd).
      intros u [<-|[]]. now apply (ord_not_root f T HT par dep D0 HP HE H HH).
Qed.
Lemma build_ok : build_hclt T H em init f = Ok (HSum 0 1 (tr 0%nat) (hs T H em tr oc f 0 None)).
Proof.
  unfold build_hclt. replace (Nat.ltb H 1) with false by (symmetry; apply Nat.ltb_ge; lia).
  destruct HT as [[HB [HL HN]] HC]. replace (Z.eqb _ _) with true by (symmetry; apply Z.eqb_eq; lia). cbn [negb].
  replace (edges_ok f T) with true.
  2:{ symmetry. apply forallb_forall. intros [a b] He. destruct (HB a b He) as [Ha Hb]. specialize (HC a b He). cbn [fst snd]. apply andb_true_iff. split; [apply andb_true_iff; split; now apply Nat.ltb_lt|]. apply negb_true_iff, Nat.eqb_neq. lia. }
  cbn [negb]. change (@None nat) with (ptv 0%nat). rewrite build_sub by (rewrite ?D0; try lia; exact f_pos). cbn [bind]. apply root_ok; [exact HH|exact HI|apply hs_ch; [apply init_oc_ok|exact HH]].
Qed.
End OneBuild.

(** *** normalised, for all parameters *)
Section Dist.
Context (D : nat -> domain) (em : nat -> nat -> row -> lval) (tr : nat -> nat -> nat -> R) (oc : nat) (HO : (oc = 1 \/ oc = H)%nat)
  (HD : forall v h, (v < f)%nat -> (h < H)%nat -> is_dist D [v] (em v h)).
Lemma sum_dist vs k v p lg o noc w : (forall h, (h < H)%nat -> is_dist D vs (fun x => t_ll (hten (hs T H em tr oc k v p) x) 0 h 0)) ->
  is_dist D vs (fun x => t_ll (hten (HSum w noc lg (hs T H em tr oc k v p)) x) 0 o 0).
Proof.
  intros HS. apply is_dist_ext with (g := fun x => lfrom (bsum H (fun i => softmax H (fun j => lg j o) i * pr (t_ll (hten (hs T H em tr oc k v p) x) 0 i 0)))).
  - intros x. cbn [hten t_ll]. unfold lse, t_ch. rewrite hs_sh by assumption. cbn [channels]. f_equal. apply bsum_ext. intros i Hi. rewrite pr_ladd. cbn [pr]. rewrite exp_log_softmax by exact HH. ring.
  - apply (dist_mix D vs H (softmax H (fun j => lg j o)) (fun i x => t_ll (hten (hs T H em tr oc k v p) x) 0 i 0)); [|now apply softmax_sum|exact HS].
    intros i Hi. left. now apply softmax_pos.
Qed.
Lemma hs_dist k : forall v h, (v < f)%nat -> (h < H)%nat -> is_dist D (ord T k v (ptv v)) (fun x => t_ll (hten (hs T H em tr oc k v (ptv v)) x) 0 h 0).
Proof.
  induction k as [|k IH]; intros v h Hv Hh; [apply (HD v h Hv Hh)|]. cbn [hs].
  unfold ptv. rewrite (ord_S f T HT par dep D0 HP HE H HH k v Hv). fold ptv.
  assert (KV : forall c, In c (kids T v (ptv v)) -> Some v = ptv c /\ (c < f)%nat).
  { intros c Hc. split; [now apply (kids_pt f T HT par dep D0 HP HE H HH)|]. apply (kids_In f T HT par dep D0 HP HE H HH v c Hv) in Hc. lia. }
  destruct (kids T v (ptv v)) as [|c0 cs] eqn:EK; [apply (HD v h Hv Hh)|]. rewrite <- EK in *. clear EK c0 cs.
  set (ch := kids T v (ptv v)) in *. set (sm := fun c => HSum c oc (tr c) (hs T H em tr oc k c (Some v))).
  set (ins := HLeaf v H (em v) :: map sm ch).
  apply is_dist_ext with (g := fun x => ladds (S (length ch)) (fun i => match i with O => em v h x | S j => t_ll (hten (sm (nth j ch 0%nat)) x) 0 (bidx oc h) 0 end)).
  - intros x. cbn [hten]. fold sm. fold ins. cbn [t_ll]. unfold ew_ll. rewrite map_length. unfold ins at 1. cbn [length]. rewrite map_length. apply ladds_ext. intros i Hi.
    destruct i as [|j]; [cbn [ins map nth hten t_ll]; unfold t_ch; cbn [t_sh channels]; now rewrite bidx_H|].
    unfold ins. cbn [map nth]. rewrite map_map. rewrite (nth_indep _ no_tens (hten (sm 0%nat) x)) by (rewrite map_length; lia).
    rewrite (map_nth (fun c => hten (sm c) x)). reflexivity.
  - apply (dist_prod D (S (length ch)) (fun i => match i with O => [v] | S j => ord T k (nth j ch 0%nat) (ptv (nth j ch 0%nat)) end)).
    + intros [|j] Hj; [apply (HD v h Hv Hh)|]. assert (Hc : In (nth j ch 0%nat) ch) by (apply nth_In; lia). destruct (KV _ Hc) as [E L]. unfold sm. rewrite E.
      apply sum_dist. intros i Hi. now apply IH.
    + assert (NR : forall j, (j < length ch)%nat -> ~ In v (ord T k (nth j ch 0%nat) (ptv (nth j ch 0%nat)))).
      { intros j Hj. apply (ord_not_root f T HT par dep D0 HP HE H HH k v); [exact Hv|now apply nth_In]. }
      intros [|i] [|j] u Hi Hj N Hu; [congruence| | |].
      * destruct Hu as [<-|[]]. apply NR. lia.
      * intros [<-|[]]. revert Hu. apply NR. lia.
      * apply (ord_disj f T HT par dep D0 HP HE H HH k v (nth i ch 0%nat) (nth j ch 0%nat) Hv); [exact (nth_In ch 0%nat (proj2 (Nat.succ_lt_mono _ _) Hi))|exact (nth_In ch 0%nat (proj2 (Nat.succ_lt_mono _ _) Hj))| |exact Hu].
        intros C. apply N. f_equal. refine (proj1 (NoDup_nth ch 0%nat) (kids_NoDup f T HT v (ptv v)) i j _ _ C); lia.
    + intros u. cbn [In]. rewrite in_flat_map. split.
      * intros [<-|(c & Hc & Hu)]; [exists 0%nat; split; [lia|now left]|]. destruct (In_nth ch c 0%nat Hc) as (j & Hj & E). exists (S j). split; [lia|]. rewrite E. exact Hu.
      * intros ([|j] & Hj & Hu); [destruct Hu as [<-|[]]; now left|]. right. exists (nth j ch 0%nat). split; [apply nth_In; lia|exact Hu].
Qed.
Lemma root_dist : is_dist D (seq 0 f) (hll (HSum 0 1 (tr 0%nat) (hs T H em tr oc f 0 None))).
Proof.
  apply is_dist_equiv with (vs := ord T f 0 None).
  - intros v. split; intros Hv; (eapply Permutation_in; [|exact Hv]); [|apply Permutation_sym]; now apply (ord_root f T HT par dep D0 HP HE H HH).
  - unfold hll. apply sum_dist. intros h Hh. apply (hs_dist f 0%nat h f_pos Hh).
Qed.
End Dist.

(** *** the value *)
Section Root.
Context (em : nat -> nat -> row -> lval) (tr : nat -> nat -> nat -> R) (oc : nat) (HO : (oc = 1 \/ oc = H)%nat) (x : row).
Lemma root_value z : pr (hll (HSum 0 1 (tr 0%nat) (hs T H em tr oc f 0 None)) x) = fsum H (seq 0 f) (fun y => lprod (seq 0 f) (fun u => loc par H em tr oc x u y)) z.
Proof.
  unfold hll. cbn [hten t_ll]. rewrite pr_lse. unfold t_ch. rewrite hs_sh by assumption. cbn [channels].
  rewrite (bsum_ext H _ (fun i => A H tr oc 0 i (z (par 0%nat)) * V T H em tr oc x f 0 (pt par 0%nat) i)).
  - rewrite (message f T HT par dep D0 HP HE H HH em tr oc HO x f 0%nat z f_pos). pose proof (ord_root f T HT par dep D0 HP HE H HH) as PM. change (pt par 0%nat) with (@None nat).
    rewrite (fsum_perm H _ _ _ PM). apply fsum_ext. intros y. now apply lprod_perm.
  - intros i Hi. rewrite pr_ladd. cbn [pr]. rewrite exp_log_softmax by exact HH. rewrite hs_val by assumption. change (pt par 0%nat) with (@None nat). unfold A. cbn [Nat.eqb]. ring.
Qed.
End Root.
End Tree.

(** sums only visit values below [K] *)
Lemma fsum_ext_lt K l : forall g h z, NoDup l -> (forall y, (forall u, In u l -> (y u < K)%nat) -> (forall u, ~ In u l -> y u = z u) -> g y = h y) -> fsum K l g z = fsum K l h z.
Proof.
  induction l as [|v l IH]; intros g h z ND E; [apply E; [contradiction|reflexivity]|]. inversion ND as [|? ? NI ND']; subst. rewrite !fsum_fupd. apply bsum_ext. intros k Hk. apply IH; [exact ND'|]. intros y Hy1 Hy2. apply E.
  - intros u [<-|Hu]; [|now apply Hy1]. rewrite Hy2 by exact NI. now rewrite fupd_same.
  - intros u Hu. rewrite Hy2 by (intros C; apply Hu; now right). apply fupd_diff. intros ->. apply Hu. now left.
Qed.
