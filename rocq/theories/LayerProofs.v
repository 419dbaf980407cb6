(** Proofs about LayerModel.v. *)
From Coq Require Import List Arith Bool Lia Lra Permutation.
From Verif Require Import Base ScopeModel CircuitModel CircuitSpec CircuitEval Integral CircuitMarg CircuitProps
  SampleModel SampleSpec EmModel EmProofs SplitModel SplitProofs LayerModel LayerSpec.
Import ListNotations.
Local Open Scope R_scope.

(** ** closure of distributions *)
Lemma is_dist_equiv D vs ws g : (forall v, In v vs <-> In v ws) -> is_dist D vs g -> is_dist D ws g.
Proof.
  intros E [L M T]. constructor.
  - intros x y H. apply L. intros v Hv. apply H, E, Hv.
  - intros v x Hv. apply M, E, Hv.
  - intros x H. apply T. intros v Hv. apply H, E, Hv.
Qed.

Lemma is_dist_ext D vs g g' : (forall x, g x = g' x) -> is_dist D vs g -> is_dist D vs g'.
Proof. intros E H. replace g' with g; [exact H|]. apply functional_extensionality, E. Qed.

Lemma dist_mix D vs n (w : nat -> R) (g : nat -> row -> lval) :
  (forall i, (i < n)%nat -> 0 <= w i) -> bsum n w = 1 ->
  (forall i, (i < n)%nat -> is_dist D vs (g i)) ->
  is_dist D vs (fun x => lfrom (bsum n (fun i => w i * pr (g i x)))).
Proof.
  intros Hw Hs H.
  assert (Hn : forall x, 0 <= bsum n (fun i => w i * pr (g i x))).
  { intros x. apply bsum_nonneg. intros i Hi. apply Rmult_le_pos; [now apply Hw|apply pr_nonneg]. }
  constructor.
  - intros x y E. f_equal. apply bsum_ext. intros i Hi. now rewrite (d_local D vs (g i) (H i Hi) x y E).
  - intros v x Hv. rewrite pr_lfrom by auto.
    eapply sums_ext; [intros a; symmetry; apply pr_lfrom; auto|].
    assert (Hpos : (0 < n)%nat). { destruct n; [cbn in Hs; lra|lia]. }
    apply (sums_bsum (D v) n (fun i a => w i * pr (g i (upd x v (Some a)))) (fun i => w i * pr (g i (upd x v None)))
             (fun a => pr (g 0%nat (upd x v (Some a)))) (pr (g 0%nat (upd x v None)))).
    + apply (d_marg D vs (g 0%nat)); [now apply H|assumption].
    + intros i Hi. apply (sums_scal (D v) (w i) (fun a => pr (g i (upd x v (Some a))))).
      apply (d_marg D vs (g i)); [now apply H|assumption].
  - intros x E. apply pr_inj. rewrite pr_lfrom, pr_Fin0 by auto. rewrite <- Hs. apply bsum_ext.
    intros i Hi. rewrite (d_total D vs (g i) (H i Hi) x E), pr_Fin0. ring.
Qed.

Lemma dist_prod D n (vs : nat -> list nat) (g : nat -> row -> lval) ws :
  (forall i, (i < n)%nat -> is_dist D (vs i) (g i)) ->
  (forall i j v, (i < n)%nat -> (j < n)%nat -> i <> j -> In v (vs i) -> ~ In v (vs j)) ->
  (forall v, In v ws <-> exists i, (i < n)%nat /\ In v (vs i)) ->
  is_dist D ws (fun x => ladds n (fun i => g i x)).
Proof.
  intros H Hd Hw. constructor.
  - intros x y E. apply ladds_ext. intros i Hi. apply (d_local D (vs i) (g i) (H i Hi)).
    intros v Hv. apply E, Hw. eauto.
  - intros v x Hv. apply Hw in Hv. destruct Hv as (k & Hk & Hv).
    rewrite pr_ladds, (bprod_isolate n _ k Hk).
    assert (E : forall o, bprod n (fun i => if Nat.eqb i k then 1 else pr (g i (upd x v o))) =
                          bprod n (fun i => if Nat.eqb i k then 1 else pr (g i x))).
    { intros o. apply bprod_ext. intros i Hi. destruct (Nat.eqb_spec i k); [reflexivity|].
      f_equal. apply (d_local D (vs i) (g i) (H i Hi)). intros u Hu.
      apply upd_other. intros ->. exact (Hd i k v Hi Hk n0 Hu Hv). }
    rewrite E.
    eapply sums_ext; [intros a; symmetry; rewrite pr_ladds, (bprod_isolate n _ k Hk), E; reflexivity|].
    rewrite Rmult_comm. eapply sums_ext; [intros a; apply Rmult_comm|].
    apply (sums_scal (D v) _ (fun a => pr (g k (upd x v (Some a))))).
    apply (d_marg D (vs k) (g k)); [now apply H|assumption].
  - intros x E. apply pr_inj. rewrite pr_ladds, pr_Fin0. apply bprod_one. intros i Hi.
    rewrite (d_total D (vs i) (g i) (H i Hi)), ?pr_Fin0; [reflexivity|]. intros v Hv. apply E, Hw. eauto.
Qed.

(** ** OuterProduct *)
Fixpoint nprod (l : list nat) : nat := match l with [] => 1%nat | n :: r => (n * nprod r)%nat end.

Lemma flat_map_const_len {A B} (l : list A) (f : A -> list B) k : (forall a, In a l -> length (f a) = k) -> length (flat_map f l) = (length l * k)%nat.
Proof.
  induction l as [|a l IH]; intros H; [reflexivity|]. cbn [flat_map length].
  rewrite app_length, IH, H; [lia|now left|intros; apply H; now right].
Qed.

Lemma iproduct_length cs : length (iproduct cs) = nprod cs.
Proof.
  induction cs as [|n cs IH]; [reflexivity|]. cbn [iproduct nprod].
  rewrite (flat_map_const_len _ _ (nprod cs)); [now rewrite seq_length|].
  intros a _. now rewrite map_length.
Qed.

Lemma iproduct_In cs : forall t, In t (iproduct cs) <-> length t = length cs /\ forall i, (i < length cs)%nat -> (nth i t 0 < nth i cs 0)%nat.
Proof.
  induction cs as [|n cs IH]; intros t.
  - cbn. split; [intros [<-|[]]; split; [reflexivity|lia]|]. intros [H _]. destruct t; [now left|discriminate].
  - cbn [iproduct]. rewrite in_flat_map. split.
    + intros (i & Hi & Ht). apply in_map_iff in Ht. destruct Ht as (u & <- & Hu). apply IH in Hu. destruct Hu as [Hl Hu].
      apply in_seq in Hi. split; [cbn; now rewrite Hl|]. intros [|k] Hk; cbn in *; [lia|apply Hu; lia].
    + intros [Hl H]. destruct t as [|i u]; [discriminate|]. exists i. split.
      * apply in_seq. specialize (H 0%nat). cbn in H. lia.
      * apply in_map, IH. split; [now injection Hl|]. intros k Hk. apply (H (S k)). cbn. lia.
Qed.

Lemma NoDup_app_intro {A} (a b : list A) : NoDup a -> NoDup b -> (forall x, In x a -> ~ In x b) -> NoDup (a ++ b).
Proof.
  induction a as [|x a IH]; intros Ha Hb H; [exact Hb|]. inversion Ha; subst. cbn. constructor.
  - rewrite in_app_iff. intros [E|E]; [contradiction|apply (H x); [now left|assumption]].
  - apply IH; auto. intros y Hy. apply H. now right.
Qed.

Lemma iproduct_NoDup cs : NoDup (iproduct cs).
Proof.
  induction cs as [|n cs IH]; [constructor; [easy|constructor]|]. cbn [iproduct].
  generalize 0%nat. induction n as [|n IHn]; intros s; [constructor|]. cbn [seq flat_map].
  apply NoDup_app_intro.
  - apply FinFun.Injective_map_NoDup; [|exact IH]. intros a b E. now injection E.
  - apply IHn.
  - intros t Ht Hf. apply in_map_iff in Ht. destruct Ht as (u & <- & _).
    apply in_flat_map in Hf. destruct Hf as (j & Hj & Hu). apply in_map_iff in Hu. destruct Hu as (w & E & _).
    injection E as E _. apply in_seq in Hj. lia.
Qed.

Lemma nth_error_flat_map {A B} (l : list A) (f : A -> list B) k : (0 < k)%nat -> (forall a, In a l -> length (f a) = k) -> forall c,
  nth_error (flat_map f l) c = match nth_error l (c / k) with Some a => nth_error (f a) (c mod k) | None => None end.
Proof.
  intros Hk. induction l as [|a l IH]; intros H c.
  - cbn. rewrite !(proj2 (nth_error_None _ _)); cbn; try lia; reflexivity.
  - cbn [flat_map]. destruct (Nat.ltb_spec c k).
    + rewrite nth_error_app1 by (rewrite H; [assumption|now left]). rewrite Nat.div_small, Nat.mod_small by assumption. reflexivity.
    + rewrite nth_error_app2 by (rewrite H; [assumption|now left]). rewrite (H a) by now left.
      rewrite IH by (intros; apply H; now right).
      assert (E1 : (c / k = S ((c - k) / k))%nat).
      { replace c with ((c - k) + 1 * k)%nat at 1 by lia. rewrite Nat.div_add by lia. lia. }
      assert (E2 : (c mod k = (c - k) mod k)%nat).
      { replace c with ((c - k) + 1 * k)%nat at 1 by lia. now rewrite Nat.mod_add by lia. }
      rewrite E1, E2. reflexivity.
Qed.

(** the digits of [c] in the mixed radix [cs] *)
Lemma iproduct_digits n cs c : (c < n * nprod cs)%nat ->
  nth c (iproduct (n :: cs)) [] = (c / nprod cs)%nat :: nth (c mod nprod cs) (iproduct cs) [].
Proof.
  intros Hc. assert (Hp : (0 < nprod cs)%nat) by (destruct (nprod cs); lia).
  assert (Hd : (c / nprod cs < n)%nat) by (apply Nat.div_lt_upper_bound; lia).
  apply nth_error_nth. cbn [iproduct].
  rewrite (nth_error_flat_map _ _ (nprod cs)); [|assumption|intros; now rewrite map_length, iproduct_length].
  rewrite (nth_error_nth' (seq 0 n) 0%nat) by now rewrite seq_length.
  rewrite seq_nth by assumption. cbn [plus].
  rewrite nth_error_map, (nth_error_nth' (iproduct cs) []); [reflexivity|].
  rewrite iproduct_length. apply Nat.mod_upper_bound. lia.
Qed.

Fixpoint tprod (l : list (nat * (nat -> lval))) (t : list nat) : R :=
  match l with [] => 1 | a :: r => pr (snd a (hd 0%nat t)) * tprod r (tl t) end.

Lemma tprod_bprod l : forall t, tprod l t = bprod (length l) (fun i => pr (snd (nth i l (0%nat, fun _ => NInf)) (nth i t 0%nat))).
Proof.
  induction l as [|a l IH]; intros t; [reflexivity|]. cbn [tprod length]. rewrite bprod_S_first, IH. f_equal.
  - destruct t; reflexivity.
  - apply bprod_ext. intros i _. destruct t; [cbn; destruct i; reflexivity|reflexivity].
Qed.

Lemma outer_fold rest : forall n0 g0 c, Forall (fun a => (0 < fst a)%nat) rest ->
  pr (snd (fold_left outer_step rest (n0, g0)) c) =
  pr (g0 (c / nprod (map fst rest))%nat) * tprod rest (nth (c mod nprod (map fst rest)) (iproduct (map fst rest)) []).
Proof.
  induction rest as [|[m g] rest IH]; intros n0 g0 c Hp.
  - cbn. rewrite Nat.div_1_r, Rmult_1_r. reflexivity.
  - inversion Hp as [|? ? Hm Hp']; subst. cbn [fst] in Hm. cbn [fold_left]. unfold outer_step at 2. cbn [fst snd].
    rewrite IH by assumption. cbn [map fst nprod]. rewrite pr_ladd.
    set (P := nprod (map fst rest)).
    assert (HP : (0 < P)%nat).
    { unfold P. clear -Hp'. induction rest as [|a r IH]; [cbn; lia|]. inversion Hp'; subst. cbn. apply Nat.mul_pos_pos; auto. }
    rewrite iproduct_digits by (fold P; apply Nat.mod_upper_bound; nia). fold P.
    cbn [tprod hd tl snd].
    replace (c mod (m * P) / P)%nat with ((c / P) mod m)%nat.
    2: { rewrite (Nat.mul_comm m P), Nat.mod_mul_r by lia.
         rewrite (Nat.mul_comm P), Nat.div_add by lia.
         rewrite (Nat.div_small (c mod P)) by (apply Nat.mod_upper_bound; lia). reflexivity. }
    replace ((c mod (m * P)) mod P)%nat with (c mod P)%nat.
    2: { rewrite (Nat.mul_comm m P), Nat.mod_mul_r by lia.
         rewrite (Nat.mul_comm P), Nat.mod_add by lia. now rewrite Nat.mod_mod by lia. }
    replace (c / (m * P))%nat with (c / P / m)%nat by (rewrite Nat.div_div by lia; f_equal; lia).
    ring.
Qed.

Lemma outer_vals_spec l c : Forall (fun a => (0 < fst a)%nat) l -> (c < nprod (map fst l))%nat -> l <> [] ->
  snd (outer_vals l) c = ladds (length l) (fun i => snd (nth i l (0%nat, fun _ => NInf)) (nth i (nth c (iproduct (map fst l)) []) 0%nat)).
Proof.
  intros Hp Hc Hn. destruct l as [|[n0 g0] rest]; [congruence|]. inversion Hp as [|? ? H0 Hr]; subst.
  apply pr_inj. rewrite pr_ladds. cbn [outer_vals]. rewrite outer_fold by assumption.
  rewrite <- (tprod_bprod ((n0, g0) :: rest)). cbn [tprod snd map fst]. cbn [map fst nprod] in Hc.
  rewrite iproduct_digits by exact Hc. reflexivity.
Qed.

Definition positive_channels (ts : list tens) : Prop := Forall (fun t => (0 < t_ch t)%nat) ts.

Lemma c21_channels counts :
  length (iproduct counts) = fold_right Nat.mul 1%nat counts /\ NoDup (iproduct counts) /\
  forall t, In t (iproduct counts) <-> length t = length counts /\ forall i, (i < length counts)%nat -> (nth i t 0 < nth i counts 0)%nat.
Proof.
  split; [|split; [apply iproduct_NoDup|apply iproduct_In]].
  rewrite iproduct_length. induction counts; cbn; [reflexivity|now rewrite IHcounts].
Qed.

Lemma c21_ll ts s f c r t : positive_channels ts -> outer_shape ts = Ok s -> outer_map (map t_ch ts) c = Ok t ->
  outer_ll ts f c r = ladds (length ts) (fun i => t_ll (nth i ts no_tens) (bidx (t_ft (nth i ts no_tens)) f) (nth i t 0%nat) r).
Proof.
  intros Hp Hs Ht. unfold outer_ll. unfold outer_map in Ht.
  destruct (nth_error (iproduct (map t_ch ts)) c) eqn:E; [|discriminate]. injection Ht as <-.
  set (L := map _ ts). assert (EL : map fst L = map t_ch ts) by (unfold L; rewrite map_map; reflexivity).
  rewrite outer_vals_spec.
  - unfold L at 1. rewrite map_length, EL. rewrite (nth_error_nth _ _ _ E). apply ladds_ext. intros i Hi.
    unfold L. rewrite (nth_indep _ _ ((fun t => (t_ch t, fun k => t_ll t (bidx (t_ft t) f) k r)) no_tens)) by now rewrite map_length.
    rewrite (map_nth (fun t => (t_ch t, fun k => t_ll t (bidx (t_ft t) f) k r))). reflexivity.
  - unfold L. clear -Hp. induction Hp; cbn; constructor; auto.
  - rewrite EL, <- iproduct_length. apply nth_error_Some. congruence.
  - unfold L. destruct ts; [discriminate|discriminate].
Qed.

(** ** splits *)
Lemma nth_flat_map_rect {A} (g : nat -> nat -> A) a b d i j : (i < a)%nat -> (j < b)%nat ->
  nth (i * b + j) (flat_map (fun i => map (g i) (seq 0 b)) (seq 0 a)) d = g i j.
Proof.
  intros Hi Hj. apply nth_error_nth.
  rewrite (nth_error_flat_map _ _ b); [|lia|intros; now rewrite map_length, seq_length].
  replace ((i * b + j) / b)%nat with i by (rewrite Nat.add_comm, Nat.div_add by lia; rewrite Nat.div_small; lia).
  replace ((i * b + j) mod b)%nat with j by (rewrite Nat.add_comm, Nat.mod_add by lia; rewrite Nat.mod_small; lia).
  rewrite (nth_error_nth' (seq 0 a) 0%nat) by now rewrite seq_length. rewrite seq_nth by assumption. cbn [plus].
  rewrite nth_error_map, (nth_error_nth' (seq 0 b) 0%nat) by now rewrite seq_length. rewrite seq_nth by assumption. reflexivity.
Qed.

Lemma unsplit_spec {A} k w n (l : nat -> nat -> A) d out : unsplit k w n l = Ok out ->
  length out = (w * n)%nat /\ forall f i, (f < w)%nat -> (i < n)%nat -> nth (in_feature k w n f i) out d = l f i.
Proof.
  destruct k; cbn [unsplit in_feature]; intros E; try discriminate; injection E as <-; split.
  - rewrite (flat_map_const_len _ _ w); [rewrite seq_length; lia|intros; now rewrite map_length, seq_length].
  - intros f i Hf Hi. now rewrite (nth_flat_map_rect (fun i f => l f i)).
  - rewrite (flat_map_const_len _ _ n); [rewrite seq_length; lia|intros; now rewrite map_length, seq_length].
  - intros f i Hf Hi. now rewrite (nth_flat_map_rect l).
Qed.

(** the parts a split of the features of [t] produces *)
Definition split_parts (k : split_kind) (n : nat) (t : tens) : result (list tens) :=
  let mk := map (of_slices (t_ch t) (repetitions (t_sh t))) in
  match k with
  | Consecutive => bind (split_consecutive n (slices t)) (fun l => Ok (mk l))
  | Interleaved => Ok (mk (split_interleaved n (slices t)))
  | ByIndex => Err
  end.

Lemma slices_length t : length (slices t) = t_ft t.
Proof. unfold slices. now rewrite map_length, seq_length. Qed.

Lemma slices_nth t d f : (f < t_ft t)%nat -> nth f (slices t) d = t_ll t f.
Proof.
  intros H. unfold slices. rewrite (nth_indep _ d (t_ll t 0%nat)) by now rewrite map_length, seq_length.
  rewrite (map_nth (fun f => t_ll t f)), seq_nth by assumption. reflexivity.
Qed.

Lemma split_parts_spec k n w t ps : (0 < n)%nat -> (0 < w)%nat -> t_ft t = (w * n)%nat -> split_parts k n t = Ok ps ->
  length ps = n /\ forall i, (i < n)%nat -> t_sh (nth i ps no_tens) = mkShape w (t_ch t) (repetitions (t_sh t)) /\
    forall f, (f < w)%nat -> t_ll (nth i ps no_tens) f = t_ll t (in_feature k w n f i).
Proof.
  intros Hn Hw HF E. destruct k; cbn [split_parts in_feature] in *; try discriminate.
  - rewrite (split_consecutive_div n w) in E; [|assumption|assumption|rewrite slices_length; lia].
    cbn [bind] in E. injection E as <-. rewrite !map_length, seq_length. split; [reflexivity|].
    intros i Hi. rewrite map_map.
    set (G := fun i => of_slices (t_ch t) (repetitions (t_sh t)) (firstn w (skipn (i * w) (slices t)))).
    rewrite (nth_indep _ no_tens (G 0%nat)) by now rewrite map_length, seq_length.
    rewrite (map_nth G), seq_nth by assumption. cbn [plus]. unfold G, of_slices. cbn [t_sh t_ll].
    assert (HL : length (firstn w (skipn (i * w) (slices t))) = w).
    { rewrite firstn_length, skipn_length, slices_length. nia. }
    split; [now rewrite HL|]. intros f Hf.
    rewrite <- (slices_nth t (fun _ _ => NInf)) by nia.
    rewrite <- (firstn_skipn (i * w) (slices t)) at 2.
    assert (HK : length (firstn (i * w) (slices t)) = (i * w)%nat) by (rewrite firstn_length, slices_length; nia).
    rewrite app_nth2 by lia. rewrite HK. replace (i * w + f - i * w)%nat with f by lia.
    rewrite <- (firstn_skipn w (skipn (i * w) (slices t))) at 2. rewrite app_nth1 by lia. reflexivity.
  - injection E as <-. unfold split_interleaved. rewrite !map_length, seq_length. split; [reflexivity|].
    intros i Hi. rewrite map_map.
    set (G := fun i => of_slices (t_ch t) (repetitions (t_sh t)) (strided n i (slices t))).
    rewrite (nth_indep _ no_tens (G 0%nat)) by now rewrite map_length, seq_length.
    rewrite (map_nth G), seq_nth by assumption. cbn [plus]. unfold G, of_slices. cbn [t_sh t_ll].
    rewrite (strided_spec n i (fun _ _ => NInf) w) by (rewrite ?slices_length; auto).
    rewrite map_length, seq_length. split; [reflexivity|]. intros f Hf.
    set (H := fun j => nth (j * n + i) (slices t) (fun _ _ => NInf)).
    rewrite (nth_indep _ _ (H 0%nat)) by now rewrite map_length, seq_length.
    rewrite (map_nth H), seq_nth by assumption. cbn [plus]. unfold H. apply slices_nth. nia.
Qed.

Lemma list_max_const {A} (g : A -> nat) l n : l <> [] -> (forall a, In a l -> g a = n) -> list_max (map g l) = n.
Proof.
  intros Hn H. destruct l as [|a l]; [congruence|]. clear Hn. revert a H. induction l as [|b l IH]; intros a H.
  - cbn. rewrite (H a) by now left. lia.
  - cbn [map list_max]. change (Nat.max (g a) (list_max (map g (b :: l))) = n).
    rewrite IH by (intros; apply H; now right). rewrite (H a) by now left. lia.
Qed.

Lemma In_nth_tens (ps : list tens) p : In p ps -> exists i, (i < length ps)%nat /\ nth i ps no_tens = p.
Proof. intros H. apply (In_nth ps p no_tens H). Qed.

(** OuterProduct over a split input: log-likelihood and routing agree *)
Lemma c21_split k n w t ps s out r (cs : nat -> nat) (tup : nat -> list nat) : (0 < n)%nat -> (0 < w)%nat -> (0 < t_ch t)%nat ->
  t_ft t = (w * n)%nat -> split_parts k n t = Ok ps -> outer_shape ps = Ok s ->
  (forall f, (f < w)%nat -> outer_map (map t_ch ps) (cs f) = Ok (tup f)) ->
  unsplit k w n (fun f i => nth i (tup f) 0%nat) = Ok out ->
  features s = w /\ length out = (w * n)%nat /\
  forall f, (f < w)%nat -> outer_ll ps f (cs f) r =
    ladds n (fun i => t_ll t (in_feature k w n f i) (nth (in_feature k w n f i) out 0%nat) r).
Proof.
  intros Hn Hw Hc HF E Es Em Eu.
  destruct (split_parts_spec k n w t ps Hn Hw HF E) as [Hl Hp].
  destruct (unsplit_spec k w n _ 0%nat out Eu) as [Hlo Ho].
  assert (Hpc : positive_channels ps).
  { apply Forall_forall. intros p Ip. apply In_nth_tens in Ip. destruct Ip as (i & Hi & <-).
    unfold t_ch. rewrite (proj1 (Hp i ltac:(lia))). exact Hc. }
  split; [|split; [exact Hlo|]].
  - destruct ps as [|p0 rest]; [discriminate|]. cbn [outer_shape] in Es.
    destruct (forallb _ rest); [|discriminate]. injection Es as <-. cbn [features].
    specialize (Hp 0%nat ltac:(lia)). cbn in Hp. unfold t_ft. now rewrite (proj1 Hp).
  - intros f Hf. rewrite (c21_ll ps s f (cs f) r (tup f) Hpc Es (Em f Hf)), Hl.
    apply ladds_ext. intros i Hi. destruct (Hp i Hi) as [Hsh Hv].
    rewrite Ho by assumption. unfold t_ft. rewrite Hsh. cbn [features].
    unfold bidx. destruct (Nat.eqb_spec w 1).
    + rewrite (Hv 0%nat) by lia. replace f with 0%nat by lia. reflexivity.
    + rewrite (Hv f) by assumption. reflexivity.
Qed.

(** ** ElementwiseProduct *)
Lemma c22_ll ts s f c r : ew_shape ts = Ok s -> (c < channels s)%nat ->
  ew_ll ts f c r = ladds (length ts) (fun i => t_ll (nth i ts no_tens) f (nth i (ew_map ts c) 0%nat) r) /\
  forall i, (i < length ts)%nat -> (0 < t_ch (nth i ts no_tens))%nat ->
    (nth i (ew_map ts c) 0 < t_ch (nth i ts no_tens))%nat /\
    (t_ch (nth i ts no_tens) = channels s -> nth i (ew_map ts c) 0%nat = c).
Proof.
  intros Hs Hc.
  assert (Hacc : ew_accepts ts = true /\ channels s = ew_channels ts).
  { unfold ew_shape in Hs. destruct ts as [|t0 rest]; [discriminate|]. destruct (ew_accepts (t0 :: rest)); [|discriminate].
    destruct (forallb _ rest); [|discriminate]. injection Hs as <-. auto. }
  destruct Hacc as [Hacc Hch].
  assert (Hm : forall i, (i < length ts)%nat -> nth i (ew_map ts c) 0%nat = if Nat.eqb (t_ch (nth i ts no_tens)) 1 then 0%nat else c).
  { intros i Hi. unfold ew_map. set (G := fun t => if Nat.eqb (t_ch t) 1 then 0%nat else c).
    rewrite (nth_indep _ 0%nat (G no_tens)) by now rewrite map_length. now rewrite (map_nth G). }
  split.
  - unfold ew_ll. apply ladds_ext. intros i Hi. cbn zeta. rewrite Hm by assumption. reflexivity.
  - intros i Hi Hpos. rewrite Hm by assumption.
    unfold ew_accepts in Hacc. rewrite forallb_forall in Hacc.
    specialize (Hacc _ (nth_In ts no_tens Hi)). apply orb_true_iff in Hacc.
    destruct (Nat.eqb_spec (t_ch (nth i ts no_tens)) 1) as [H1|H1].
    + split; lia.
    + destruct Hacc as [Ha|Ha]; [discriminate Ha|]. apply Nat.eqb_eq in Ha. split; [lia|auto].
Qed.

Lemma c22_split k n w t ps out (cs : nat -> nat) r s : (0 < n)%nat -> (0 < w)%nat -> (0 < t_ch t)%nat ->
  t_ft t = (w * n)%nat -> split_parts k n t = Ok ps -> ew_shape ps = Ok s ->
  unsplit k w n (fun f _ => cs f) = Ok out -> (forall f, (f < w)%nat -> (cs f < t_ch t)%nat) ->
  s = mkShape w (t_ch t) (repetitions (t_sh t)) /\ length out = (w * n)%nat /\
  forall f, (f < w)%nat -> ew_ll ps f (cs f) r =
    ladds n (fun i => t_ll t (in_feature k w n f i) (nth (in_feature k w n f i) out 0%nat) r).
Proof.
  intros Hn Hw Hc HF E Es Eu Hcs.
  destruct (split_parts_spec k n w t ps Hn Hw HF E) as [Hl Hp].
  destruct (unsplit_spec k w n _ 0%nat out Eu) as [Hlo Ho].
  assert (Hmax : ew_channels ps = t_ch t).
  { apply list_max_const; [intros ->; cbn in Hl; lia|]. intros p Ip. apply In_nth_tens in Ip. destruct Ip as (i & Hi & <-).
    unfold t_ch. now rewrite (proj1 (Hp i ltac:(lia))). }
  split; [|split; [exact Hlo|]].
  - unfold ew_shape in Es. destruct ps as [|p0 rest]; [discriminate|].
    destruct (_ && _)%bool; [|discriminate]. injection Es as <-. rewrite Hmax.
    specialize (Hp 0%nat ltac:(lia)). cbn in Hp. unfold t_ft. now rewrite (proj1 Hp).
  - intros f Hf. unfold ew_ll. rewrite Hl. apply ladds_ext. intros i Hi. cbn zeta. destruct (Hp i Hi) as [Hsh Hv].
    rewrite Ho by assumption. unfold t_ch. rewrite Hsh. cbn [channels]. rewrite (Hv f) by assumption. f_equal.
    unfold bidx. fold (t_ch t). destruct (Nat.eqb_spec (t_ch t) 1); [|reflexivity].
    specialize (Hcs f Hf). lia.
Qed.

(** ** ElementwiseSum *)
Lemma pr_esum S lg ts f c r : (0 < length ts)%nat ->
  pr (esum_ll S lg ts f c r) = bsum (length ts) (fun i =>
    softmax (length ts) (fun j => lg f (c / S)%nat (c mod S)%nat j r) i *
    pr (t_ll (nth i ts no_tens) f (bidx (t_ch (nth i ts no_tens)) (c / S)%nat) r)).
Proof.
  intros Hn. unfold esum_ll. cbn zeta. rewrite pr_lse. apply bsum_ext. intros i Hi.
  rewrite pr_ladd. cbn [pr]. rewrite exp_log_softmax by assumption. unfold esum_ci, esum_co. ring.
Qed.

Lemma pr_lse_lfrom n (g : nat -> lval) v : (forall i, (i < n)%nat -> 0 <= v i) -> pr (lfrom (bsum n v)) = bsum n v.
Proof. intros H. apply pr_lfrom, bsum_nonneg, H. Qed.

(** what a draw from sample_logits means *)
Lemma sample_logits_post D n g : 0 < bsum n (fun i => pr (g i)) -> forall h,
  expects D (sample_logits false n g) h (bsum n (fun i => pr (g i) / bsum n (fun j => pr (g j)) * h i)).
Proof.
  intros H h. unfold sample_logits. destruct (Rlt_dec 0 _); [|contradiction].
  cbn. exists h. split; [intros; reflexivity|reflexivity].
Qed.

Lemma softmax_scale n g i : pr (Fin (g i)) = softmax n g i * bsum n (fun j => exp (g j)) \/ bsum n (fun j => exp (g j)) = 0.
Proof.
  destruct (Req_dec (bsum n (fun j => exp (g j))) 0) as [E|E]; [now right|left]. unfold softmax. cbn. now field.
Qed.

(** posterior probabilities: with unnormalised logits the normaliser cancels *)
Lemma posterior_logits n (lg : nat -> R) (p : nat -> R) i : (0 < n)%nat ->
  exp (lg i) * p i / bsum n (fun j => exp (lg j) * p j) = softmax n lg i * p i / bsum n (fun j => softmax n lg j * p j).
Proof.
  intros Hn. assert (HZ : 0 < bsum n (fun j => exp (lg j))) by (apply bsum_pos; auto; intros; apply exp_pos).
  set (Z := bsum n (fun j => exp (lg j))) in *.
  assert (E : bsum n (fun j => softmax n lg j * p j) = bsum n (fun j => exp (lg j) * p j) / Z).
  { rewrite <- bsum_div. apply bsum_ext. intros j _. unfold softmax. fold Z. field. lra. }
  rewrite E. unfold softmax. fold Z.
  destruct (Req_dec (bsum n (fun j => exp (lg j) * p j)) 0) as [E0|E0].
  - rewrite E0. unfold Rdiv. rewrite Rmult_0_l, Rinv_0. ring.
  - field. split; lra.
Qed.

Lemma c23_pick D S lg ts f c r : (0 < length ts)%nat -> forall h,
  let n := length ts in
  let w i := softmax n (fun j => lg f (c / S)%nat (c mod S)%nat j r) i in
  expects D (esum_pick false S lg n None f c r) h (bsum n (fun i => w i * h i)) /\
  (pr (esum_ll S lg ts f c r) <> 0 ->
   expects D (esum_pick false S lg n (Some ts) f c r) h
     (bsum n (fun i => w i * pr (t_ll (nth i ts no_tens) f (bidx (t_ch (nth i ts no_tens)) (c / S)%nat) r)
                        / pr (esum_ll S lg ts f c r) * h i))).
Proof.
  intros Hn h n w. unfold esum_pick. split.
  - set (g := fun i => Fin (lg f (esum_ci S c) (esum_co S c) i r)).
    assert (HZ : 0 < bsum n (fun i => pr (g i))) by (apply bsum_pos; auto; intros; apply pr_fin_pos).
    pose proof (sample_logits_post D n g HZ h) as E. erewrite bsum_ext; [exact E|]. intros i Hi. reflexivity.
  - intros Hne. rewrite pr_esum in * by assumption. fold n in Hne |- *.
    set (p := fun i => pr (t_ll (nth i ts no_tens) f (bidx (t_ch (nth i ts no_tens)) (c / S)%nat) r)).
    set (q := fun i => lg f (c / S)%nat (c mod S)%nat i r).
    set (g := fun i => let t := nth i ts no_tens in ladd (Fin (lg f (esum_ci S c) (esum_co S c) i r)) (t_ll t f (bidx (t_ch t) (esum_ci S c)) r)).
    assert (Hg : forall i, pr (g i) = exp (q i) * p i) by (intros i; unfold g; cbn zeta; rewrite pr_ladd; reflexivity).
    assert (HZ : 0 < bsum n (fun i => pr (g i))).
    { destruct (Rle_lt_or_eq_dec 0 (bsum n (fun i => pr (g i)))) as [|E0]; [apply bsum_nonneg; intros; apply pr_nonneg|assumption|].
      exfalso. apply Hne. apply bsum_zero. intros i Hi.
      assert (pr (g i) = 0) as E1 by (apply (bsum_nonneg_zero n (fun i => pr (g i))); auto; intros; apply pr_nonneg).
      rewrite Hg in E1. fold (p i). apply Rmult_integral in E1. destruct E1 as [E1|E1]; [pose proof (exp_pos (q i)); lra|].
      rewrite E1. ring. }
    pose proof (sample_logits_post D n g HZ h) as E. match type of E with expects _ _ _ ?u =>
      match goal with |- expects _ _ _ ?u' => replace u' with u; [exact E|] end end.
    apply bsum_ext. intros i Hi. f_equal.
    rewrite Hg, (bsum_ext n (fun j => pr (g j)) (fun j => exp (q j) * p j)) by (intros j _; apply Hg).
    apply (posterior_logits n q p i Hn).
Qed.

(** ** layers over distributions *)
Definition at_row (x : row) (i : inp) : tens := mkT (i_sh i) (i_ll i x).

Lemma nth_at_row x ins i : (i < length ins)%nat -> nth i (map (at_row x) ins) no_tens = at_row x (nth i ins no_inp).
Proof. intros H. rewrite (nth_indep _ no_tens (at_row x no_inp)) by now rewrite map_length. apply map_nth. Qed.

Lemma Forall_nth_inp (P : inp -> Prop) ins i : Forall P ins -> (i < length ins)%nat -> P (nth i ins no_inp).
Proof. intros H Hi. rewrite Forall_forall in H. apply H, nth_In, Hi. Qed.

Lemma outer_shape_inv ts s : outer_shape ts = Ok s -> ts <> [] /\ channels s = nprod (map t_ch ts) /\
  forall i, (i < length ts)%nat -> (t_ft (nth i ts no_tens) = features s \/ t_ft (nth i ts no_tens) = 1%nat) /\ repetitions (t_sh (nth i ts no_tens)) = repetitions s.
Proof.
  destruct ts as [|t0 rest]; [discriminate|]. cbn [outer_shape].
  destruct (forallb _ rest) eqn:E; [|discriminate]. intros H. injection H as <-. cbn [channels features repetitions].
  split; [discriminate|]. split; [apply iproduct_length|].
  intros [|i] Hi; cbn [nth]; [auto|]. rewrite forallb_forall in E. cbn in Hi.
  specialize (E _ (nth_In rest no_tens (n := i) ltac:(lia))). apply andb_prop in E. destruct E as [E1 E2].
  apply Nat.eqb_eq in E2. split; [|exact E2]. apply orb_true_iff in E1. destruct E1 as [E1|E1]; apply Nat.eqb_eq in E1; auto.
Qed.

Lemma c21_dist D ins s f c r ws : Forall (inp_ok D) ins -> Forall (fun i => (0 < channels (i_sh i))%nat) ins -> disjoint_vars ins ->
  outer_shape (map (at_row (fun _ => None)) ins) = Ok s -> in_shape s f c r ->
  (forall v, In v ws <-> exists i, (i < length ins)%nat /\ In v (i_vars (nth i ins no_inp) (bidx (features (i_sh (nth i ins no_inp))) f))) ->
  is_dist D ws (fun x => outer_ll (map (at_row x) ins) f c r).
Proof.
  intros Hok Hpc Hdis Hs (Hf & Hc & Hr) Hws.
  set (x0 := fun _ : nat => @None R) in *.
  destruct (outer_shape_inv _ _ Hs) as (Hne & Hch & Hin). rewrite map_length in Hin.
  assert (Hmap : forall x, map t_ch (map (at_row x) ins) = map (fun i => channels (i_sh i)) ins) by (intros; rewrite map_map; reflexivity).
  assert (Hsx : forall x, outer_shape (map (at_row x) ins) = Ok s).
  { intros x. rewrite <- Hs. destruct ins as [|i0 rest]; [reflexivity|]. cbn [map outer_shape at_row t_sh t_ft].
    assert (forall y, forallb (fun t : tens => ((t_ft t =? t_ft (at_row y i0))%nat || (t_ft t =? 1)%nat) && (repetitions (t_sh t) =? repetitions (i_sh i0))%nat)%bool (map (at_row y) rest) =
       forallb (fun i : inp => ((features (i_sh i) =? features (i_sh i0))%nat || (features (i_sh i) =? 1)%nat) && (repetitions (i_sh i) =? repetitions (i_sh i0))%nat)%bool rest) as E.
    { intros y. clear. induction rest as [|j rest IH]; [reflexivity|]. cbn [map forallb]. now rewrite IH. }
    fold (at_row x i0) (at_row x0 i0). cbn [at_row t_sh]. rewrite !E, !map_map. reflexivity. }
  set (tup := nth c (iproduct (map (fun i => channels (i_sh i)) ins)) []).
  assert (Hc' : (c < length (iproduct (map (fun i => channels (i_sh i)) ins)))%nat).
  { rewrite iproduct_length. rewrite Hmap in Hch. lia. }
  assert (Htup : In tup (iproduct (map (fun i => channels (i_sh i)) ins))) by now apply nth_In.
  apply iproduct_In in Htup. destruct Htup as [Htl Htn]. rewrite map_length in Htl, Htn.
  apply is_dist_ext with (g := fun x => ladds (length ins) (fun i =>
     i_ll (nth i ins no_inp) x (bidx (features (i_sh (nth i ins no_inp))) f) (nth i tup 0%nat) r)).
  - intros x. symmetry. rewrite (c21_ll (map (at_row x) ins) s f c r tup).
    + rewrite map_length. apply ladds_ext. intros i Hi. rewrite nth_at_row by assumption. reflexivity.
    + apply Forall_forall. intros t Ht. apply in_map_iff in Ht. destruct Ht as (i & <- & Hi).
      rewrite Forall_forall in Hpc. exact (Hpc i Hi).
    + apply Hsx.
    + unfold outer_map. rewrite Hmap. rewrite (nth_error_nth' _ [] Hc'). reflexivity.
  - apply (dist_prod D (length ins) (fun i => i_vars (nth i ins no_inp) (bidx (features (i_sh (nth i ins no_inp))) f))
      (fun i x => i_ll (nth i ins no_inp) x (bidx (features (i_sh (nth i ins no_inp))) f) (nth i tup 0%nat) r)).
    + intros i Hi. apply (Forall_nth_inp _ _ _ Hok Hi).
      specialize (Hin i Hi). rewrite nth_at_row in Hin by assumption. cbn [at_row t_ft t_sh] in Hin. destruct Hin as [H1 H2].
      unfold t_ft in H1. cbn [at_row t_sh] in H1.
      specialize (Htn i Hi).
      rewrite (nth_indep (map (fun i => channels (i_sh i)) ins) 0%nat (channels (i_sh no_inp))) in Htn by now rewrite map_length.
      rewrite (map_nth (fun i => channels (i_sh i))) in Htn.
      split; [|split; [exact Htn|rewrite H2; exact Hr]].
      unfold bidx. destruct (Nat.eqb_spec (features (i_sh (nth i ins no_inp))) 1); lia.
    + intros i j v Hi Hj Hij. now apply Hdis.
    + exact Hws.
Qed.

Lemma ew_shape_inv ts s : ew_shape ts = Ok s -> ts <> [] /\ forall i, (i < length ts)%nat ->
   t_ft (nth i ts no_tens) = features s /\ repetitions (t_sh (nth i ts no_tens)) = repetitions s /\
   (t_ch (nth i ts no_tens) = 1%nat \/ t_ch (nth i ts no_tens) = channels s).
Proof.
  destruct ts as [|t0 rest]; [discriminate|]. cbn [ew_shape].
  destruct (ew_accepts (t0 :: rest)) eqn:EA; [|discriminate]. destruct (forallb _ rest) eqn:E; [|discriminate].
  intros H. injection H as <-. cbn [channels features repetitions]. split; [discriminate|].
  intros i Hi. unfold ew_accepts in EA. rewrite forallb_forall in EA. specialize (EA _ (nth_In (t0 :: rest) no_tens Hi)).
  apply orb_true_iff in EA.
  assert (t_ch (nth i (t0 :: rest) no_tens) = 1%nat \/ t_ch (nth i (t0 :: rest) no_tens) = ew_channels (t0 :: rest)) as Hch.
  { destruct EA as [H|H]; apply Nat.eqb_eq in H; auto. }
  split; [|split; [|exact Hch]]; destruct i as [|i]; try reflexivity; cbn [nth];
    rewrite forallb_forall in E; cbn in Hi; specialize (E _ (nth_In rest no_tens (n := i) ltac:(lia)));
    apply andb_prop in E; destruct E as [E1 E2]; now apply Nat.eqb_eq.
Qed.

Lemma c22_dist D ins s f c r ws : Forall (inp_ok D) ins -> Forall (fun i => (0 < channels (i_sh i))%nat) ins -> disjoint_vars ins ->
  ew_shape (map (at_row (fun _ => None)) ins) = Ok s -> in_shape s f c r ->
  (forall v, In v ws <-> exists i, (i < length ins)%nat /\ In v (i_vars (nth i ins no_inp) f)) ->
  is_dist D ws (fun x => ew_ll (map (at_row x) ins) f c r).
Proof.
  intros Hok Hpc Hdis Hs (Hf & Hc & Hr) Hws.
  destruct (ew_shape_inv _ _ Hs) as (Hne & Hin). rewrite map_length in Hin.
  apply is_dist_ext with (g := fun x => ladds (length ins) (fun i =>
     i_ll (nth i ins no_inp) x f (bidx (channels (i_sh (nth i ins no_inp))) c) r)).
  - intros x. unfold ew_ll. rewrite map_length. apply ladds_ext. intros i Hi. cbn zeta.
    rewrite nth_at_row by assumption. reflexivity.
  - apply (dist_prod D (length ins) (fun i => i_vars (nth i ins no_inp) f)
      (fun i x => i_ll (nth i ins no_inp) x f (bidx (channels (i_sh (nth i ins no_inp))) c) r)); [|now intros i j v Hi Hj Hij; apply Hdis|exact Hws].
    intros i Hi. apply (Forall_nth_inp _ _ _ Hok Hi).
    specialize (Hin i Hi). rewrite nth_at_row in Hin by assumption. unfold t_ft, t_ch in Hin. cbn [at_row t_sh] in Hin.
    destruct Hin as (H1 & H2 & H3). pose proof (Forall_nth_inp _ _ _ Hpc Hi) as Hp.
    split; [lia|split; [|lia]]. unfold bidx. destruct (Nat.eqb_spec (channels (i_sh (nth i ins no_inp))) 1); lia.
Qed.

(** mixture in log space *)
Lemma dist_lse D vs n (w : nat -> R) (g : nat -> row -> lval) (o : row -> lval) : (0 < n)%nat ->
  (forall i, (i < n)%nat -> 0 <= w i) -> bsum n w = 1 -> (forall i, (i < n)%nat -> is_dist D vs (g i)) ->
  (forall x, pr (o x) = bsum n (fun i => w i * pr (g i x))) -> is_dist D vs o.
Proof.
  intros Hn Hw Hs H Ho. apply is_dist_ext with (g := fun x => lfrom (bsum n (fun i => w i * pr (g i x)))).
  - intros x. rewrite <- Ho. apply lfrom_pr.
  - now apply dist_mix.
Qed.

(** ElementwiseSum: [F], [Cm], [Rr] are the features, the largest channel count and
    the repetitions of the inputs *)
Lemma c23_dist D S lg ins F Cm Rr f c r vs : (0 < S)%nat -> ins <> [] -> Forall (inp_ok D) ins ->
  Forall (fun i => features (i_sh i) = F /\ (channels (i_sh i) = 1%nat \/ channels (i_sh i) = Cm) /\ repetitions (i_sh i) = Rr) ins ->
  (f < F)%nat -> (c < Cm * S)%nat -> (r < Rr)%nat ->
  (forall i v, (i < length ins)%nat -> In v (i_vars (nth i ins no_inp) f) <-> In v vs) ->
  is_dist D vs (fun x => esum_ll S lg (map (at_row x) ins) f c r).
Proof.
  intros HS Hne Hok Hsh Hf Hc Hr Hv.
  assert (Hn : (0 < length ins)%nat) by (destruct ins; [congruence|cbn; lia]).
  apply (dist_lse D vs (length ins) (fun i => softmax (length ins) (fun j => lg f (c / S)%nat (c mod S)%nat j r) i)
    (fun i x => i_ll (nth i ins no_inp) x f (bidx (channels (i_sh (nth i ins no_inp))) (c / S)%nat) r)); auto.
  - intros i Hi. apply Rlt_le, softmax_pos, Hn.
  - now apply softmax_sum.
  - intros i Hi. apply (is_dist_equiv D (i_vars (nth i ins no_inp) f)); [intros v; now apply Hv|].
    apply (Forall_nth_inp _ _ _ Hok Hi). destruct (Forall_nth_inp _ _ _ Hsh Hi) as (H1 & H2 & H3).
    assert (Hd : (c / S < Cm)%nat) by (apply Nat.div_lt_upper_bound; lia).
    split; [lia|split; [|lia]]. unfold bidx. destruct (Nat.eqb_spec (channels (i_sh (nth i ins no_inp))) 1); lia.
  - intros x. rewrite pr_esum by now rewrite map_length. rewrite map_length. apply bsum_ext. intros i Hi.
    rewrite nth_at_row by assumption. reflexivity.
Qed.

(** ** Einsum *)
Lemma bsum_flat I J (f : nat -> R) : bsum (I * J) f = bsum I (fun i => bsum J (fun j => f (i * J + j)%nat)).
Proof. induction I as [|I IH]; [reflexivity|]. cbn [mult bsum]. rewrite Nat.add_comm, bsum_app, IH. reflexivity. Qed.

Lemma pair_weight_pos I J lg f o r i j : (0 < I * J)%nat -> 0 < pair_weight I J lg f o r i j.
Proof. intros H. now apply softmax_pos. Qed.
Lemma pair_weight_sum I J lg f o r : (0 < I * J)%nat -> bsum I (fun i => bsum J (fun j => pair_weight I J lg f o r i j)) = 1.
Proof. intros H. unfold pair_weight. rewrite <- (bsum_flat I J (fun k => softmax (I * J) (flat_logits J lg f o r) k)). now apply softmax_sum. Qed.

Lemma contract_dense s I J p q w : contract s I J p q w = bsum I (fun i => bsum J (fun j => p i * q j * w i j)).
Proof.
  destruct s; cbn [contract]; [reflexivity| |].
  - rewrite (bsum_swap I J). apply bsum_ext. intros j _. rewrite <- bsum_scal. apply bsum_ext. intros. ring.
  - apply bsum_ext. intros i _. rewrite <- bsum_scal. apply bsum_ext. intros. ring.
Qed.

Lemma lmax_fin n g : (exists i, (i < n)%nat /\ g i <> NInf) -> exists a, lmax n g = Fin a.
Proof.
  induction n as [|n IH]; intros (i & Hi & Hg); [lia|]. cbn [lmax]. unfold lmax2.
  destruct (Nat.eq_dec i n) as [->|Hn].
  - destruct (g n) as [|b] eqn:E; [congruence|]. destruct (lmax n g) as [|a]; cbn; [eauto|]. destruct (Rlt_dec a b); eauto.
  - destruct IH as [a ->]; [exists i; split; [lia|exact Hg]|]. destruct (g n) as [|b]; cbn; [eauto|]. destruct (Rlt_dec a b); eauto.
Qed.

Lemma lmax_ninf n g : (forall i, (i < n)%nat -> g i = NInf) -> lmax n g = NInf.
Proof. induction n as [|n IH]; intros H; [reflexivity|]. cbn [lmax]. rewrite IH by auto. rewrite H by lia. reflexivity. Qed.

Lemma shifted_fin a l : exists b, shifted (Fin a) l = Some b /\ b = pr l * exp (- a).
Proof.
  destruct l as [|x]; cbn; eexists; (split; [reflexivity|]); [ring|]. unfold Rminus. now rewrite exp_plus.
Qed.
Lemma all_some_fin n a (g : nat -> lval) : all_some n (fun i => shifted (Fin a) (g i)) = true.
Proof. induction n as [|n IH]; [reflexivity|]. cbn [all_some]. rewrite IH. destruct (shifted_fin a (g n)) as (b & -> & _). reflexivity. Qed.
Lemma val0_fin a l : val0 (shifted (Fin a) l) = pr l * exp (- a).
Proof. destruct (shifted_fin a l) as (b & -> & E). exact E. Qed.

Definition einsum_spec (I J : nat) (w : nat -> nat -> R) (p q : nat -> lval) : lval :=
  lfrom (bsum I (fun i => bsum J (fun j => w i j * (pr (p i) * pr (q j))))).

Lemma c24_einsum s I J lg l r_ f o r :
  (exists i, (i < I)%nat /\ l f i r <> NInf) -> (exists j, (j < J)%nat /\ r_ f j r <> NInf) ->
  einsum_ll s I J lg l r_ f o r = of_lval (einsum_spec I J (pair_weight I J lg f o r) (fun i => l f i r) (fun j => r_ f j r)).
Proof.
  intros HL HR. unfold einsum_ll.
  destruct (lmax_fin I (fun i => l f i r) HL) as [a Ea]. destruct (lmax_fin J (fun j => r_ f j r) HR) as [b Eb].
  cbn zeta. rewrite Ea, Eb, !all_some_fin. cbn [andb]. unfold log_add2. f_equal. apply pr_inj.
  assert (HIJ : (0 < I * J)%nat) by (destruct HL as (i & Hi & _), HR as (j & Hj & _); nia).
  unfold einsum_spec. rewrite !pr_ladd, !pr_lfrom.
  - rewrite contract_dense. cbn [pr]. rewrite <- !bsum_scal_r. apply bsum_ext. intros i _. rewrite <- !bsum_scal_r. apply bsum_ext. intros j _.
    rewrite !val0_fin.
    assert (E1 : exp (- a) * exp a = 1) by (rewrite <- exp_plus, Rplus_opp_l; apply exp_0).
    assert (E2 : exp (- b) * exp b = 1) by (rewrite <- exp_plus, Rplus_opp_l; apply exp_0).
    transitivity (pr (l f i r) * pr (r_ f j r) * pair_weight I J lg f o r i j * (exp (- a) * exp a) * (exp (- b) * exp b)); [ring|].
    rewrite E1, E2. ring.
  - apply bsum_nonneg. intros i _. apply bsum_nonneg. intros j _.
    pose proof (pair_weight_pos I J lg f o r i j HIJ). pose proof (pr_nonneg (l f i r)). pose proof (pr_nonneg (r_ f j r)).
    apply Rmult_le_pos; [lra|apply Rmult_le_pos; assumption].
  - rewrite contract_dense. apply bsum_nonneg. intros i _. apply bsum_nonneg. intros j _. rewrite !val0_fin.
    pose proof (pair_weight_pos I J lg f o r i j HIJ). pose proof (pr_nonneg (l f i r)). pose proof (pr_nonneg (r_ f j r)).
    pose proof (exp_pos (-a)). pose proof (exp_pos (-b)).
    apply Rmult_le_pos; [apply Rmult_le_pos; apply Rmult_le_pos; lra|lra].
Qed.

Lemma c24_einsum_nan s I J lg l r_ f o r : (0 < I)%nat -> (forall i, (i < I)%nat -> l f i r = NInf) -> einsum_ll s I J lg l r_ f o r = FNan.
Proof.
  intros HI H. unfold einsum_ll. cbn zeta. rewrite lmax_ninf by assumption.
  replace (all_some I (fun i => shifted NInf (l f i r))) with false; [reflexivity|].
  destruct I; [lia|]. cbn. now rewrite andb_false_r.
Qed.

(** the documented function of two distributions over disjoint variables is a distribution *)
Lemma dist_pair_mix D n (w : nat -> R) (L R_ : nat -> row -> lval) vl vr ws (o : row -> lval) : (0 < n)%nat ->
  (forall k, (k < n)%nat -> 0 <= w k) -> bsum n w = 1 ->
  (forall k, (k < n)%nat -> is_dist D vl (L k)) -> (forall k, (k < n)%nat -> is_dist D vr (R_ k)) ->
  (forall v, In v vl -> ~ In v vr) -> (forall v, In v ws <-> In v vl \/ In v vr) ->
  (forall x, pr (o x) = bsum n (fun k => w k * (pr (L k x) * pr (R_ k x)))) ->
  is_dist D ws o.
Proof.
  intros Hn Hw Hs HL HR Hd Hws Ho.
  apply (dist_lse D ws n w (fun k x => ladd (L k x) (R_ k x))); auto.
  - intros k Hk. apply is_dist_ext with (g := fun x => ladds 2 (fun i => (if Nat.eqb i 0 then L k else R_ k) x)).
    + intros x. apply pr_inj. rewrite pr_ladds, pr_ladd. cbn. ring.
    + apply (dist_prod D 2 (fun i => if Nat.eqb i 0 then vl else vr) (fun i => if Nat.eqb i 0 then L k else R_ k)).
      * intros [|i] Hi; cbn; [now apply HL|now apply HR].
      * intros i j v Hi Hj Hij. destruct i as [|[|i]], j as [|[|j]]; cbn; try lia; [apply Hd|]. intros A B. exact (Hd v B A).
      * intros v. rewrite Hws. split.
        -- intros [H|H]; [exists 0%nat|exists 1%nat]; split; auto.
        -- intros ([|[|i]] & Hi & H); cbn in H; auto; lia.
  - intros x. rewrite Ho. apply bsum_ext. intros k Hk. now rewrite pr_ladd.
Qed.

Lemma c24_einsum_dist D I J lg (L R_ : inp) f o r ws : (0 < I * J)%nat -> inp_ok D L -> inp_ok D R_ ->
  (forall i, (i < I)%nat -> in_shape (i_sh L) f i r) -> (forall j, (j < J)%nat -> in_shape (i_sh R_) f j r) ->
  (forall v, In v (i_vars L f) -> ~ In v (i_vars R_ f)) -> (forall v, In v ws <-> In v (i_vars L f) \/ In v (i_vars R_ f)) ->
  is_dist D ws (fun x => einsum_spec I J (pair_weight I J lg f o r) (fun i => i_ll L x f i r) (fun j => i_ll R_ x f j r)).
Proof.
  intros HIJ HL HR SL SR Hd Hws.
  assert (Hdm : forall k, (k < I * J)%nat -> (k / J < I)%nat /\ (k mod J < J)%nat).
  { intros k Hk. split; [apply Nat.div_lt_upper_bound; nia|apply Nat.mod_upper_bound; nia]. }
  apply (dist_pair_mix D (I * J) (softmax (I * J) (flat_logits J lg f o r))
           (fun k x => i_ll L x f (k / J)%nat r) (fun k x => i_ll R_ x f (k mod J)%nat r) (i_vars L f) (i_vars R_ f)); auto.
  - intros k _. now apply Rlt_le, softmax_pos.
  - now apply softmax_sum.
  - intros k Hk. apply HL, SL, Hdm, Hk.
  - intros k Hk. apply HR, SR, Hdm, Hk.
  - intros x. unfold einsum_spec. rewrite bsum_flat, pr_lfrom.
    + apply bsum_ext. intros i Hi. apply bsum_ext. intros j Hj. unfold pair_weight.
      replace ((i * J + j) / J)%nat with i by (rewrite Nat.add_comm, Nat.div_add by lia; rewrite Nat.div_small; lia).
      replace ((i * J + j) mod J)%nat with j by (rewrite Nat.add_comm, Nat.mod_add by lia; rewrite Nat.mod_small; lia).
      reflexivity.
    + apply bsum_nonneg. intros i _. apply bsum_nonneg. intros j _.
      pose proof (pair_weight_pos I J lg f o r i j HIJ). pose proof (pr_nonneg (i_ll L x f i r)). pose proof (pr_nonneg (i_ll R_ x f j r)).
      apply Rmult_le_pos; [lra|apply Rmult_le_pos; assumption].
Qed.

Lemma expects_bind_ret {A B} D (p : prog A) (k : A -> B) g u : expects D p (fun a => g (k a)) u -> expects D (pbind p (fun a => Ret (k a))) g u.
Proof.
  revert u. induction p as [a| |n w q IH|l f c r q IH]; intros u; cbn; auto.
  - intros (h & H1 & H2). exists h. split; auto.
  - intros (h & H1 & H2). exists h. split; auto.
Qed.

(** generic routing step: logits plus evidence *)
Lemma pick_post D n (q : nat -> R) (p : nat -> lval) h : (0 < n)%nat -> bsum n (fun i => softmax n q i * pr (p i)) <> 0 ->
  expects D (sample_logits false n (fun i => ladd (Fin (q i)) (p i))) h
    (bsum n (fun i => softmax n q i * pr (p i) / bsum n (fun j => softmax n q j * pr (p j)) * h i)).
Proof.
  intros Hn Hne. set (g := fun i => ladd (Fin (q i)) (p i)).
  assert (Hg : forall i, pr (g i) = exp (q i) * pr (p i)) by (intros i; unfold g; rewrite pr_ladd; reflexivity).
  assert (HZ : 0 < bsum n (fun i => pr (g i))).
  { destruct (Rle_lt_or_eq_dec 0 (bsum n (fun i => pr (g i)))) as [|E0]; [apply bsum_nonneg; intros; apply pr_nonneg|assumption|].
    exfalso. apply Hne. apply bsum_zero. intros i Hi.
    assert (pr (g i) = 0) as E1 by (apply (bsum_nonneg_zero n (fun i => pr (g i))); auto; intros; apply pr_nonneg).
    rewrite Hg in E1. apply Rmult_integral in E1. destruct E1 as [E1|E1]; [pose proof (exp_pos (q i)); lra|].
    rewrite E1. ring. }
  pose proof (sample_logits_post D n g HZ h) as E.
  match type of E with expects _ _ _ ?u => match goal with |- expects _ _ _ ?u' => replace u' with u; [exact E|] end end.
  apply bsum_ext. intros i Hi. f_equal.
  rewrite Hg, (bsum_ext n (fun j => pr (g j)) (fun j => exp (q j) * pr (p j))) by (intros j _; apply Hg).
  apply (posterior_logits n q (fun i => pr (p i)) i Hn).
Qed.
Lemma pick_prior D n (q : nat -> R) h : (0 < n)%nat ->
  expects D (sample_logits false n (fun i => Fin (q i))) h (bsum n (fun i => softmax n q i * h i)).
Proof.
  intros Hn. set (g := fun i => Fin (q i)).
  assert (HZ : 0 < bsum n (fun i => pr (g i))) by (apply bsum_pos; auto; intros; apply pr_fin_pos).
  exact (sample_logits_post D n g HZ h).
Qed.

Lemma c24_einsum_pick D I J lg a b f o r h : (0 < I * J)%nat ->
  let w := pair_weight I J lg f o r in
  let Z := bsum I (fun i => bsum J (fun j => w i j * (pr (a f i r) * pr (b f j r)))) in
  expects D (einsum_pick false I J lg None f o r) h (bsum I (fun i => bsum J (fun j => w i j * h (i, j)))) /\
  (Z <> 0 -> expects D (einsum_pick false I J lg (Some (a, b)) f o r) h
     (bsum I (fun i => bsum J (fun j => w i j * (pr (a f i r) * pr (b f j r)) / Z * h (i, j))))).
Proof.
  intros HIJ w Z. unfold einsum_pick.
  assert (Hdm : forall i j, (i < I)%nat -> (j < J)%nat -> unflat J (i * J + j) = (i, j)).
  { intros i j Hi Hj. unfold unflat. f_equal.
    - rewrite Nat.add_comm, Nat.div_add by lia. rewrite Nat.div_small; lia.
    - rewrite Nat.add_comm, Nat.mod_add by lia. rewrite Nat.mod_small; lia. }
  split.
  - apply expects_bind_ret.
    pose proof (pick_prior D (I * J) (flat_logits J lg f o r) (fun k => h (unflat J k)) HIJ) as E.
    match type of E with expects _ _ _ ?u => match goal with |- expects _ _ _ ?u' => replace u' with u; [exact E|] end end.
    rewrite bsum_flat. apply bsum_ext. intros i Hi. apply bsum_ext. intros j Hj. rewrite Hdm by assumption. reflexivity.
  - intros HZ. apply expects_bind_ret.
    set (p := fun k => ladd (a f (k / J)%nat r) (b f (k mod J)%nat r)).
    assert (EZ : bsum (I * J) (fun k => softmax (I * J) (flat_logits J lg f o r) k * pr (p k)) = Z).
    { rewrite bsum_flat. apply bsum_ext. intros i Hi. apply bsum_ext. intros j Hj. unfold p. rewrite pr_ladd.
      pose proof (Hdm i j Hi Hj) as Hu. unfold unflat in Hu. injection Hu as -> ->. reflexivity. }
    pose proof (pick_post D (I * J) (flat_logits J lg f o r) p (fun k => h (unflat J k)) HIJ) as E.
    rewrite EZ in E. specialize (E HZ).
    match type of E with expects _ _ _ ?u => match goal with |- expects _ _ _ ?u' => replace u' with u; [exact E|] end end.
    rewrite bsum_flat. apply bsum_ext. intros i Hi. apply bsum_ext. intros j Hj. rewrite Hdm by assumption.
    unfold p. rewrite pr_ladd.
    pose proof (Hdm i j Hi Hj) as Hu. unfold unflat in Hu. injection Hu as -> ->. reflexivity.
Qed.

(** ** Linsum *)
Lemma c24_linsum C lg l r_ f o r : (0 < C)%nat ->
  pr (linsum_ll C lg l r_ f o r) = bsum C (fun c => softmax C (lg f o r) c * (pr (l f c r) * pr (r_ f c r))).
Proof.
  intros HC. unfold linsum_ll. rewrite pr_lse. apply bsum_ext. intros c _. rewrite !pr_ladd. cbn [pr].
  rewrite exp_log_softmax by assumption. ring.
Qed.
Lemma c24_linsum_dist D C lg (L R_ : inp) f o r ws : (0 < C)%nat -> inp_ok D L -> inp_ok D R_ ->
  (forall i, (i < C)%nat -> in_shape (i_sh L) f i r) -> (forall j, (j < C)%nat -> in_shape (i_sh R_) f j r) ->
  (forall v, In v (i_vars L f) -> ~ In v (i_vars R_ f)) -> (forall v, In v ws <-> In v (i_vars L f) \/ In v (i_vars R_ f)) ->
  is_dist D ws (fun x => linsum_ll C lg (i_ll L x) (i_ll R_ x) f o r).
Proof.
  intros HC HL HR SL SR Hd Hws.
  apply (dist_pair_mix D C (softmax C (lg f o r)) (fun k x => i_ll L x f k r) (fun k x => i_ll R_ x f k r) (i_vars L f) (i_vars R_ f)); auto.
  - intros k _. now apply Rlt_le, softmax_pos.
  - now apply softmax_sum.
  - intros x. now apply c24_linsum.
Qed.
Lemma c24_linsum_pick D C lg a b f o r h : (0 < C)%nat ->
  expects D (linsum_pick false C lg None f o r) h (bsum C (fun c => softmax C (lg f o r) c * h (c, c))) /\
  (pr (linsum_ll C lg a b f o r) <> 0 -> expects D (linsum_pick false C lg (Some (a, b)) f o r) h
     (bsum C (fun c => softmax C (lg f o r) c * (pr (a f c r) * pr (b f c r)) / pr (linsum_ll C lg a b f o r) * h (c, c)))).
Proof.
  intros HC. unfold linsum_pick. split.
  - apply (expects_bind_ret D _ (fun c : nat => (c, c))). apply (pick_prior D C (lg f o r) (fun c => h (c, c)) HC).
  - intros HZ. apply (expects_bind_ret D _ (fun c : nat => (c, c))).
    set (p := fun c => ladd (a f c r) (b f c r)).
    assert (EZ : bsum C (fun c => softmax C (lg f o r) c * pr (p c)) = pr (linsum_ll C lg a b f o r)).
    { rewrite c24_linsum by assumption. apply bsum_ext. intros c _. unfold p. now rewrite pr_ladd. }
    pose proof (pick_post D C (lg f o r) p (fun c => h (c, c)) HC) as E. rewrite EZ in E. specialize (E HZ).
    match type of E with expects _ _ _ ?u => match goal with |- expects _ _ _ ?u' => replace u' with u; [exact E|] end end.
    apply bsum_ext. intros c _. unfold p. now rewrite pr_ladd.
Qed.

(** ** RepetitionMixingLayer *)
Lemma c25_ll Rr lg l f c : (0 < Rr)%nat ->
  pr (repmix_ll Rr lg l f c) = bsum Rr (fun r => softmax Rr (lg f c) r * pr (l f c r)).
Proof.
  intros HR. unfold repmix_ll. rewrite pr_lse. apply bsum_ext. intros r _. rewrite pr_ladd. cbn [pr].
  rewrite exp_log_softmax by assumption. ring.
Qed.
Lemma c25_dist D Rr lg (L : inp) f c vs : (0 < Rr)%nat -> inp_ok D L -> (forall r, (r < Rr)%nat -> in_shape (i_sh L) f c r) ->
  (forall v, In v vs <-> In v (i_vars L f)) -> is_dist D vs (fun x => repmix_ll Rr lg (i_ll L x) f c).
Proof.
  intros HR HL SL Hv. apply (dist_lse D vs Rr (softmax Rr (lg f c)) (fun r x => i_ll L x f c r)); auto.
  - intros k _. now apply Rlt_le, softmax_pos.
  - now apply softmax_sum.
  - intros r Hr. apply (is_dist_equiv D (i_vars L f)); [intros v; symmetry; apply Hv|]. now apply HL, SL.
  - intros x. now apply c25_ll.
Qed.
(** one channel: the repetition is drawn from its posterior *)
Lemma c25_pick D Rr lg l h : (0 < Rr)%nat ->
  expects D (repmix_pick false 1 Rr lg None) h (bsum Rr (fun r => softmax Rr (lg 0%nat 0%nat) r * h r)) /\
  (pr (repmix_ll Rr lg l 0 0) <> 0 -> expects D (repmix_pick false 1 Rr lg (Some l)) h
     (bsum Rr (fun r => softmax Rr (lg 0%nat 0%nat) r * pr (l 0%nat 0%nat r) / pr (repmix_ll Rr lg l 0 0) * h r))).
Proof.
  intros HR. unfold repmix_pick. split.
  - replace (fun r => ladds 1 (fun c => repmix_logit Rr lg None c r)) with (fun r => Fin (lg 0%nat 0%nat r)).
    + now apply pick_prior.
    + apply functional_extensionality. intros r. apply pr_inj. rewrite pr_ladds. cbn. ring.
  - intros HZ. set (g := fun r => ladds 1 (fun c => repmix_logit Rr lg (Some l) c r)).
    set (q := fun r => ladd (Fin (lg 0%nat 0%nat r)) (l 0%nat 0%nat r)).
    set (Z := bsum Rr (fun r => pr (q r))).
    assert (Hq : forall r, pr (q r) = exp (lg 0%nat 0%nat r) * pr (l 0%nat 0%nat r)) by (intros; unfold q; rewrite pr_ladd; reflexivity).
    assert (HS : 0 < bsum Rr (fun j => exp (lg 0%nat 0%nat j))) by (apply bsum_pos; auto; intros; apply exp_pos).
    assert (EZ : pr (repmix_ll Rr lg l 0 0) = Z / bsum Rr (fun j => exp (lg 0%nat 0%nat j))).
    { rewrite c25_ll by assumption. unfold Z. rewrite <- bsum_div. apply bsum_ext. intros r _. rewrite Hq. unfold softmax. field. lra. }
    assert (HZ0 : Z <> 0). { intros E. apply HZ. rewrite EZ, E. unfold Rdiv. ring. }
    assert (HZp : 0 < Z).
    { destruct (Rle_lt_or_eq_dec 0 Z) as [|E]; [apply bsum_nonneg; intros; apply pr_nonneg|assumption|congruence]. }
    assert (Hg : forall r, pr (g r) = pr (q r) / Z).
    { intros r. unfold g. rewrite pr_ladds. cbn [bprod repmix_logit]. fold (q r). rewrite Rmult_1_l.
      assert (El : pr (lse Rr q) = Z) by apply pr_lse.
      change (pr (lsub (q r) (lse Rr q)) = pr (q r) / Z). rewrite pr_lsub; rewrite El; [reflexivity|exact HZp]. }
    assert (Hg1 : bsum Rr (fun r => pr (g r)) = 1).
    { rewrite (bsum_ext Rr _ (fun r => pr (q r) / Z)) by (intros; apply Hg). rewrite bsum_div. fold Z. now field. }
    pose proof (sample_logits_post D Rr g ltac:(rewrite Hg1; lra) h) as E.
    match type of E with expects _ _ _ ?u => match goal with |- expects _ _ _ ?u' => replace u' with u; [exact E|] end end.
    apply bsum_ext. intros r _. f_equal. rewrite Hg1, Hg, EZ, Hq. unfold softmax. field. split; lra.
Qed.
