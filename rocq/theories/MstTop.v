(** mst_with_constraints and topk_mst. *)
From Coq Require Import List Arith Bool Reals Lia Lra Permutation Sorted.
From Verif Require Import Base PromModel PromGraph PromParts CltSpec CltPrim MstModel MstSpec MstUf MstKruskal.
Import ListNotations.
Local Open Scope nat_scope.

Lemma eqe_spec e f : eqe e f = true <-> e = f.
Proof.
  destruct e, f. unfold eqe. cbn [fst snd]. rewrite andb_true_iff, !Nat.eqb_eq. split; [intros [-> ->]; reflexivity|intros E; injection E; auto].
Qed.
Lemma meme_In e l : meme e l = true <-> In e l.
Proof.
  unfold meme. rewrite existsb_exists. split; [intros (x & Hx & E); apply eqe_spec in E; now subst|intros H; exists e; split; [exact H|now apply eqe_spec]].
Qed.
Lemma meme_false e l : meme e l = false <-> ~ In e l.
Proof. rewrite <- meme_In, not_true_iff_false. reflexivity. Qed.
Definition good_edges (n : nat) (l : list (nat * nat)) : Prop := forall u v, In (u, v) l -> u < v < n.
Lemma canon_lt u v : u < v -> canon (u, v) = (u, v).
Proof. intros H. unfold canon. cbn [fst snd]. destruct (Nat.leb_spec u v); [reflexivity|lia]. Qed.
Lemma canon_id n l : good_edges n l -> map canon l = l.
Proof. intros H. rewrite <- (map_id l) at 2. apply map_ext_in. intros [u v] He. apply canon_lt. apply H in He. lia. Qed.
Lemma tree_good n T : tree n T -> good_edges n T.
Proof. intros HT u v He. apply (tree_In_triu n T (u, v) HT), triu_In in He. lia. Qed.
Lemma total_weight n m w T : matrix_is n m w -> tree n T -> total_of m T = weight w T.
Proof.
  intros HM HT. unfold total_of, weight. f_equal. apply map_ext_in. intros [u v] He. apply (tree_good n T HT) in He. cbn [fst snd]. rewrite HM by lia. reflexivity.
Qed.
Lemma tree_pos n T : tree n T -> 0 < n.
Proof. intros [(_ & _ & H) _]. lia. Qed.
Lemma tree_NoDup n T : tree n T -> NoDup T.
Proof. intros [H _]. now apply (spanning_NoDup n). Qed.
Lemma tree_len n T T' : tree n T -> tree n T' -> length T = length T'.
Proof. intros [(_ & _ & H) _] [(_ & _ & H') _]. lia. Qed.
Lemma tree_incl_same n T T' : tree n T -> tree n T' -> incl T T' -> same_tree T T'.
Proof.
  intros H H' I e. split; [apply I|]. apply (NoDup_length_incl (tree_NoDup n T H)); [rewrite (tree_len n T T' H H'); lia|exact I].
Qed.

(** the trees satisfying the constraints *)
Definition cls (n : nat) (inc exc : list (nat * nat)) (T : list (nat * nat)) : Prop :=
  tree n T /\ incl inc T /\ forall e, In e exc -> ~ In e T.
Definition fits (inc exc M : list (nat * nat)) : bool := (subset inc M && negb (existsb (fun e => meme e exc) M))%bool.
Lemma fits_spec inc exc M : fits inc exc M = true <-> incl inc M /\ forall e, In e exc -> ~ In e M.
Proof.
  unfold fits, subset. rewrite andb_true_iff, forallb_forall, negb_true_iff, <- not_true_iff_false, existsb_exists. split.
  - intros [H1 H2]. split; [intros e He; apply meme_In, H1, He|]. intros e He HM. apply H2. exists e. split; [exact HM|now apply meme_In].
  - intros [H1 H2]. split; [intros e He; apply meme_In, H1, He|]. intros (e & He & HE). apply meme_In in HE. now apply (H2 e).
Qed.
Lemma fits_cls n inc exc M : tree n M -> (fits inc exc M = true <-> cls n inc exc M).
Proof. intros H. rewrite fits_spec. unfold cls. tauto. Qed.
Definition valid_dropout (d : R) : Prop := (0 <= d < 1)%R.
Lemma valid_check d : valid_dropout d -> (rlt d 0 || negb (rlt d 1))%bool = false.
Proof. intros [H1 H2]. unfold rlt. destruct (Rlt_dec d 0), (Rlt_dec d 1); cbn; try reflexivity; exfalso; lra. Qed.
Lemma invalid_check d : ~ valid_dropout d -> (rlt d 0 || negb (rlt d 1))%bool = true.
Proof. intros H. unfold rlt. destruct (Rlt_dec d 0), (Rlt_dec d 1); cbn; try reflexivity. elim H. split; lra. Qed.

Lemma mwc_kruskal n m w inc exc d mask mn : matrix_is n m w -> 0 < n -> good_edges n inc -> good_edges n exc -> valid_dropout d ->
  exists M, tree n M /\
    (forall p, (forall e f, In e (triu n) -> In f (triu n) -> kle (keyof mn (reuse m (rlt 0 d) mask inc exc)) e f -> p f = true -> p e = true) ->
      forall T, tree n T -> length (filter p T) <= length (filter p M)) /\
    mst_with_constraints n m inc exc d mask mn = Ok (if fits inc exc M then Some (M, weight w M) else None).
Proof.
  intros HM Hn HI HE HD. unfold mst_with_constraints. rewrite (valid_check d HD), (canon_id n inc HI), (canon_id n exc HE).
  replace (existsb (fun e => Nat.leb n (snd e)) (inc ++ exc)) with false.
  2:{ symmetry. apply not_true_iff_false. rewrite existsb_exists. intros ([u v] & He & HL). apply Nat.leb_le in HL. cbn in HL. apply in_app_or in He. destruct He as [He|He]; [apply HI in He|apply HE in He]; lia. }
  destruct (kruskal_spec n (reuse m (rlt 0 d) mask inc exc) mn Hn) as (M & EK & HT & HP).
  { intros i j Hi Hj. unfold reuse. destruct (meme _ exc); [reflexivity|]. destruct (meme _ inc); [reflexivity|]. destruct (andb _ _); [reflexivity|]. now rewrite HM. }
  exists M. split; [exact HT|]. split; [exact HP|]. cbn zeta. rewrite EK. cbn [bind]. unfold fits. destruct (subset inc M); cbn [negb andb]; [|reflexivity].
  destruct (existsb _ M); cbn [negb]; [reflexivity|]. now rewrite (total_weight n m w M HM HT).
Qed.

(** without dropout a minimum of the class, if the class is not empty *)
Lemma reuse_key m w n mask inc exc u v : matrix_is n m w -> u < v < n ->
  reuse m false mask inc exc u v = if meme (u, v) exc then PosInf else if meme (u, v) inc then NegInf else Num (w u v).
Proof. intros HM H. unfold reuse. rewrite (canon_lt u v) by lia. cbn [andb]. rewrite HM by lia. reflexivity. Qed.

Lemma weight_filter (w : nat -> nat -> R) (p : nat * nat -> bool) T : weight w T = (weight w (filter p T) + weight w (filter (fun e => negb (p e)) T))%R.
Proof. rewrite <- weight_app. apply weight_perm, filter_partition. Qed.
Lemma weight_val w T : weight w T = lsumR (map (fun e => w (fst e) (snd e)) T).
Proof. reflexivity. Qed.
Lemma filter_filter_len {A} (p q : A -> bool) l : length (filter (fun x => (p x || (negb (p x) && q x))%bool) l) =
  length (filter p l) + length (filter q (filter (fun x => negb (p x)) l)).
Proof. induction l as [|a l IH]; [reflexivity|]. cbn [filter]. destruct (p a); cbn [negb orb andb length filter]; [lia|]. destruct (q a); cbn [length]; lia. Qed.
Lemma count_map w t (l : list (nat * nat)) : count t (map (fun e => w (fst e) (snd e)) l) = length (filter (fun e => leb_t t (w (fst e) (snd e))) l).
Proof. unfold count. induction l as [|a l IH]; [reflexivity|]. cbn [map filter]. destruct (leb_t t _); cbn [length]; lia. Qed.

Lemma mwc_min n m w inc exc mask : matrix_is n m w -> 0 < n -> good_edges n inc -> good_edges n exc -> (forall e, In e inc -> ~ In e exc) ->
  (exists M, mst_with_constraints n m inc exc 0 mask true = Ok (Some (M, weight w M)) /\ cls n inc exc M /\
     forall T, cls n inc exc T -> (weight w M <= weight w T)%R) \/
  (mst_with_constraints n m inc exc 0 mask true = Ok None /\ forall T, ~ cls n inc exc T).
Proof.
  intros HM Hn HI HE HD. destruct (mwc_kruskal n m w inc exc 0 mask true HM Hn HI HE) as (M & HT & HP & EM); [split; lra|].
  replace (rlt 0 0) with false in HP by (unfold rlt; destruct (Rlt_dec 0 0); [exfalso; lra|reflexivity]). cbn [keyof] in HP.
  assert (KEY : forall e, In e (triu n) -> reuse m false mask inc exc (fst e) (snd e) = if meme e exc then PosInf else if meme e inc then NegInf else Num (w (fst e) (snd e))).
  { intros [u v] He. apply triu_In in He. now apply (reuse_key m w n). }
  assert (EXI : forall e, meme e inc = true -> meme e exc = false) by (intros e He; apply meme_false, HD, meme_In, He).
  (* a tree of the class forces the greedy tree into the class, and bounds it *)
  assert (MAIN : forall T, cls n inc exc T -> fits inc exc M = true /\ (weight w M <= weight w T)%R).
  { intros T (TT & TI & TE).
    assert (P1 : length (filter (fun e => meme e inc) T) <= length (filter (fun e => meme e inc) M)).
    { apply HP; [|exact TT]. intros e f He Hf K Pf. unfold kle in K. rewrite (KEY e He), (KEY f Hf), (EXI f Pf), Pf in K. destruct (meme e exc); [discriminate K|]. destruct (meme e inc); [reflexivity|discriminate K]. }
    assert (I1 : incl (filter (fun e => meme e inc) M) (filter (fun e => meme e inc) T)).
    { intros e He. apply filter_In in He. apply filter_In. split; [apply TI, meme_In; tauto|tauto]. }
    assert (I2 : incl (filter (fun e => meme e inc) T) (filter (fun e => meme e inc) M)).
    { apply NoDup_length_incl; [apply NoDup_filter, (tree_NoDup n), HT|exact P1|exact I1]. }
    assert (MI : incl inc M).
    { intros e He. assert (H : In e (filter (fun e => meme e inc) T)) by (apply filter_In; split; [now apply TI|now apply meme_In]). apply I2, filter_In in H. tauto. }
    assert (P2 : length (filter (fun e => negb (meme e exc)) T) <= length (filter (fun e => negb (meme e exc)) M)).
    { apply HP; [|exact TT]. intros e f He Hf K Pf. apply negb_true_iff in Pf. unfold kle in K. rewrite (KEY e He), (KEY f Hf), Pf in K. destruct (meme e exc); [|reflexivity]. destruct (meme f inc); discriminate K. }
    rewrite (filter_id _ T) in P2 by (intros e He; apply negb_true_iff, meme_false; intros H; now apply (TE e H)).
    assert (ME : forall e, In e exc -> ~ In e M).
    { intros e He HMe. assert (L : length (filter (fun e => negb (meme e exc)) M) = length M).
      { apply Nat.le_antisymm; [|rewrite (tree_len n M T HT TT); exact P2]. clear. induction M as [|a l IH]; [auto|]. cbn. destruct (negb _); cbn; lia. }
      assert (AI : incl M (filter (fun e => negb (meme e exc)) M)).
      { apply NoDup_length_incl; [apply NoDup_filter, (tree_NoDup n), HT|lia|]. intros x Hx. apply filter_In in Hx. tauto. }
      apply AI, filter_In in HMe. destruct HMe as [_ HMe]. apply negb_true_iff, meme_false in HMe. contradiction. }
    split; [apply fits_spec; split; assumption|].
    rewrite (weight_filter w (fun e => meme e inc) M), (weight_filter w (fun e => meme e inc) T).
    assert (PI : Permutation (filter (fun e => meme e inc) M) (filter (fun e => meme e inc) T)).
    { apply NoDup_Permutation; [apply NoDup_filter, (tree_NoDup n), HT|apply NoDup_filter, (tree_NoDup n), TT|]. intros e. split; [apply I1|apply I2]. }
    rewrite (weight_perm w _ _ PI). apply Rplus_le_compat_l. rewrite !weight_val. apply dominated_sum.
    - rewrite !map_length. pose proof (Permutation_length (filter_partition (fun e => meme e inc) M)) as L1. pose proof (Permutation_length (filter_partition (fun e => meme e inc) T)) as L2.
      rewrite app_length in L1, L2. pose proof (tree_len n M T HT TT). pose proof (Permutation_length PI). lia.
    - intros t. rewrite !count_map.
      assert (P3 : length (filter (fun e => (meme e inc || (negb (meme e inc) && (leb_t t (w (fst e) (snd e)) && negb (meme e exc))))%bool) T)
                <= length (filter (fun e => (meme e inc || (negb (meme e inc) && (leb_t t (w (fst e) (snd e)) && negb (meme e exc))))%bool) M)).
      { apply HP; [|exact TT]. intros e f He Hf K Pf. unfold kle in K. rewrite (KEY e He), (KEY f Hf) in K. destruct (meme e inc) eqn:Ei; [reflexivity|]. cbn [negb orb andb].
        destruct (meme f inc) eqn:Ef; cbn [negb orb andb] in Pf.
        - rewrite (EXI f Ef) in K. destruct (meme e exc); discriminate K.
        - apply andb_prop in Pf. destruct Pf as [Pt Px]. apply negb_true_iff in Px. rewrite Px in K. destruct (meme e exc); [discriminate K|]. cbn [negb]. rewrite andb_true_r.
          unfold wle, leb_t in *. cbn in K. destruct (Rlt_dec _ _) as [|C] in K; [discriminate|]. destruct (Rle_dec (w (fst f) (snd f)) t); [|discriminate]. destruct (Rle_dec _ t) as [|N]; [reflexivity|]. exfalso. lra. }
      rewrite !filter_filter_len in P3. pose proof (Permutation_length PI) as LP.
      assert (FE : forall X, (forall e, In e exc -> ~ In e X) -> filter (fun e => (leb_t t (w (fst e) (snd e)) && negb (meme e exc))%bool) (filter (fun e => negb (meme e inc)) X) = filter (fun e => leb_t t (w (fst e) (snd e))) (filter (fun e => negb (meme e inc)) X)).
      { intros X HX. apply filter_ext_in. intros e He. apply filter_In in He. destruct He as [He _]. replace (meme e exc) with false; [apply andb_true_r|]. symmetry. apply meme_false. intros H. now apply (HX e H). }
      rewrite (FE T TE), (FE M ME) in P3. lia. }
  destruct (fits inc exc M) eqn:EF; rewrite EM.
  - left. exists M. split; [reflexivity|]. split; [now apply fits_cls|]. intros T HTc. now apply MAIN.
  - right. split; [reflexivity|]. intros T HTc. destruct (MAIN T HTc). congruence.
Qed.
