(** Kruskal's optimum for both directions; topk_mst(minimize=False); argument checks. *)
From Coq Require Import List Arith Bool Reals Lia Lra Permutation Sorted.
From Verif Require Import Base PromModel PromGraph PromParts CltSpec CltPrim MstModel MstSpec MstUf MstKruskal MstTop MstEnum.
Import ListNotations.
Local Open Scope nat_scope.

Definition sgn (mn : bool) (x : R) : R := if mn then x else (- x)%R.
Lemma kruskal_optimal n (w : nat -> nat -> R) mn : 0 < n -> exists M, kruskal_mst_complete n n (fun i j => Num (w i j)) mn = Ok M /\ tree n M /\
  forall T, tree n T -> (weight (fun i j => sgn mn (w i j)) M <= weight (fun i j => sgn mn (w i j)) T)%R.
Proof.
  intros Hn. destruct (kruskal_spec n (fun i j => Num (w i j)) mn Hn) as (M & EM & HT & HP); [intros i j _ _; reflexivity|].
  exists M. split; [exact EM|]. split; [exact HT|]. intros T TT. rewrite !weight_val. apply dominated_sum.
  - rewrite !map_length. now apply (tree_len n).
  - intros t. rewrite !(count_map (fun i j => sgn mn (w i j))). apply HP; [|exact TT]. intros e f _ _ K Pf. unfold kle, wle, keyof in K. unfold leb_t, sgn in *.
    destruct mn; cbn in K; destruct (Rlt_dec _ _) as [|C] in K; try discriminate.
    + destruct (Rle_dec (w (fst f) (snd f)) t); [|discriminate]. destruct (Rle_dec _ _); [reflexivity|exfalso; lra].
    + destruct (Rle_dec (- w (fst f) (snd f)) t); [|discriminate]. destruct (Rle_dec _ _); [reflexivity|exfalso; lra].
Qed.
Lemma weight_sgn mn w M : weight (fun i j => sgn mn (w i j)) M = sgn mn (weight w M).
Proof. unfold weight. induction M as [|e M IH]; [destruct mn; cbn; lra|]. cbn [map]. change (lsumR (?a :: ?l)) with (a + lsumR l)%R in *. unfold lsumR in *. cbn [fold_right] in *. rewrite IH. destruct mn; cbn; lra. Qed.

Lemma kruskal_reuse_nil n m w mask mn : matrix_is n m w -> 0 < n ->
  exists M, mst_with_constraints n m [] [] 0 mask mn = Ok (Some (M, weight w M)) /\ tree n M /\
  forall T, tree n T -> (weight (fun i j => sgn mn (w i j)) M <= weight (fun i j => sgn mn (w i j)) T)%R.
Proof.
  intros HM Hn. assert (G0 : good_edges n []) by (intros u v []). destruct (mwc_kruskal n m w [] [] 0 mask mn HM Hn G0 G0) as (M & HT & HP & EM); [split; lra|].
  replace (fits [] [] M) with true in EM by (symmetry; apply fits_spec; split; intros e []).
  exists M. split; [exact EM|]. split; [exact HT|]. intros T TT. rewrite !weight_val. apply dominated_sum.
  - rewrite !map_length. now apply (tree_len n).
  - intros t. rewrite !(count_map (fun i j => sgn mn (w i j))). apply HP; [|exact TT]. intros e f He Hf K Pf. unfold kle, wle, keyof in K.
    replace (rlt 0 0) with false in K by (unfold rlt; destruct (Rlt_dec 0 0); [exfalso; lra|reflexivity]). unfold leb_t, sgn in *.
    destruct e as [a b], f as [u v]. apply triu_In in He, Hf. cbn [fst snd] in *. destruct mn; unfold reuse in K; cbn in K; rewrite !HM in K by lia; cbn in K; destruct (Rlt_dec _ _) as [|C] in K; try discriminate.
    + destruct (Rle_dec (w u v) t); [|discriminate]. destruct (Rle_dec _ _); [reflexivity|exfalso; lra].
    + destruct (Rle_dec (- w u v) t); [|discriminate]. destruct (Rle_dec _ _); [reflexivity|exfalso; lra].
Qed.

(** maximising: an excluded edge is taken first *)
Lemma mwc_max_none n m w inc exc mask T e : matrix_is n m w -> 0 < n -> good_edges n inc -> good_edges n exc -> tree n T -> In e T -> In e exc ->
  mst_with_constraints n m inc exc 0 mask false = Ok None.
Proof.
  intros HM Hn HI HE TT HeT HeX. destruct (mwc_kruskal n m w inc exc 0 mask false HM Hn HI HE) as (M & HT & HP & EM); [split; lra|].
  replace (rlt 0 0) with false in HP by (unfold rlt; destruct (Rlt_dec 0 0); [exfalso; lra|reflexivity]).
  assert (P : length (filter (fun e => meme e exc) T) <= length (filter (fun e => meme e exc) M)).
  { apply HP; [|exact TT]. intros [a b] [u v] Ha Hu K Pf. apply triu_In in Ha, Hu. unfold kle, wle, keyof in K. cbn [fst snd] in K.
    rewrite (reuse_key m w n mask inc exc a b HM Ha), (reuse_key m w n mask inc exc u v HM Hu), Pf in K. destruct (meme (a, b) exc); [reflexivity|]. destruct (meme (a, b) inc); discriminate K. }
  rewrite EM. replace (fits inc exc M) with false; [reflexivity|]. symmetry. apply not_true_iff_false. rewrite fits_spec. intros [_ NX].
  assert (IT : In e (filter (fun e => meme e exc) T)) by (apply filter_In; split; [exact HeT|now apply meme_In]).
  destruct (filter (fun e => meme e exc) M) as [|x l] eqn:EF.
  - destruct (filter (fun e => meme e exc) T); [contradiction|cbn in P; lia].
  - assert (IX : In x (filter (fun e => meme e exc) M)) by (rewrite EF; now left). apply filter_In in IX. destruct IX as [IX1 IX2]. apply meme_In in IX2. now apply (NX x).
Qed.
Lemma last_In {A} (l : list A) x0 : l <> [] -> In (last l x0) l.
Proof. intros H. destruct (exists_last H) as (l' & a & ->). rewrite last_last. apply in_or_app. right. now left. Qed.
Lemma removelast_incl {A} (l : list A) : incl (removelast l) l.
Proof. destruct l as [|a l]; [intros x []|]. intros x Hx. rewrite (app_removelast_last a) by discriminate. apply in_or_app. now left. Qed.
Lemma branch_max n m w masks T : matrix_is n m w -> 0 < n -> tree n T -> forall edges inc exc added t heap,
  incl edges T -> incl inc T -> incl exc T -> (added = true -> exc <> []) ->
  exists t', branch n m 0 masks false edges inc exc added t heap = Ok (heap, t').
Proof.
  intros HM Hn TT. induction edges as [|e edges IH]; intros inc exc added t heap HE HI HX HA; [eexists; reflexivity|]. cbn [branch].
  assert (HE' : incl edges T) by (intros x Hx; apply HE; now right). destruct (meme e inc); [now apply IH|]. cbn zeta.
  assert (HeT : In e T) by (apply HE; now left).
  assert (I1 : incl (if added then inc ++ [last exc (0, 0)] else inc) T).
  { destruct added; [|exact HI]. intros x Hx. apply in_app_or in Hx. destruct Hx as [Hx|[<-|[]]]; [now apply HI|]. apply HX, last_In. now apply HA. }
  assert (X1 : incl ((if added then removelast exc else exc) ++ [e]) T).
  { intros x Hx. apply in_app_or in Hx. destruct Hx as [Hx|[<-|[]]]; [|exact HeT]. destruct added; [apply HX, removelast_incl, Hx|now apply HX]. }
  assert (GE : forall l, incl l T -> good_edges n l) by (intros l Hl u v H; apply (tree_good n T TT); now apply Hl).
  rewrite (mwc_max_none n m w _ _ (masks t) T e HM Hn (GE _ I1) (GE _ X1) TT HeT); [|apply in_or_app; right; now left]. cbn [bind].
  apply IH; auto. intros _. destruct (if added then removelast exc else exc); discriminate.
Qed.
Lemma topk_max n m w k masks : matrix_is n m w -> 0 < n -> 0 < k ->
  exists M, topk_mst n n m k 0 masks false = Ok [M] /\ tree n M /\ forall T, tree n T -> (weight w T <= weight w M)%R.
Proof.
  intros HM Hn Hk. unfold topk_mst. replace (Nat.eqb k 0) with false by (symmetry; apply Nat.eqb_neq; lia). rewrite Nat.eqb_refl. cbn [negb].
  destruct (kruskal_reuse_nil n m w (fun _ _ => false) false HM Hn) as (M & EM & HT & MX). rewrite EM. cbn [bind].
  exists M. split; [|split; [exact HT|]].
  - destruct k as [|k]; [lia|]. cbn [tloop pop_min h_mst h_inc h_exc app]. destruct (Nat.eqb_spec k 0) as [K|K]; [reflexivity|].
    rewrite (canon_id n M (tree_good n M HT)). cbn [map].
    destruct (branch_max n m w masks M HM Hn HT M [] [] false 0 []) as [t' EB]; [apply incl_refl|intros x []|intros x []|discriminate|].
    rewrite EB. cbn [bind fst snd]. destruct k; reflexivity.
  - intros T TT. specialize (MX T TT). rewrite !weight_sgn in MX. cbn in MX. lra.
Qed.

(** argument checks *)
Lemma topk_checks rows cols m k d masks mn out : topk_mst rows cols m k d masks mn = Ok out ->
  0 < k /\ rows = cols /\ 0 < rows /\ forall i j, i < rows -> j < rows -> m i j <> None.
Proof.
  unfold topk_mst. destruct (Nat.eqb_spec k 0) as [|K]; [discriminate|]. destruct (Nat.eqb_spec rows cols) as [<-|]; [|discriminate]. cbn [negb].
  unfold mst_with_constraints. cbn [map app existsb]. destruct (orb _ _); [discriminate|]. unfold kruskal_mst_complete. rewrite Nat.eqb_refl. cbn [negb].
  destruct (Nat.eqb_spec rows 0) as [|R0]; [discriminate|].
  destruct (existsb _ (seq 0 rows)) eqn:E; [discriminate|]. intros _. split; [lia|]. split; [reflexivity|]. split; [lia|]. intros i j Hi Hj Hm.
  apply (proj2 (nan_check rows _)) in E. specialize (E i j Hi Hj). unfold reuse in E. cbn in E.
  replace (rlt 0 0) with false in E by (unfold rlt; destruct (Rlt_dec 0 0); [exfalso; lra|reflexivity]). cbn in E. rewrite Hm in E. discriminate.
Qed.
Lemma topk_one n m w d masks : matrix_is n m w -> 0 < n -> exists M, topk_mst n n m 1 d masks true = Ok [M].
Proof.
  intros HM Hn. unfold topk_mst. cbn [Nat.eqb]. rewrite Nat.eqb_refl. cbn [negb].
  destruct (kruskal_reuse_nil n m w (fun _ _ => false) true HM Hn) as (M & EM & HT & MX). rewrite EM. cbn [bind tloop pop_min Nat.eqb app h_mst]. now exists M.
Qed.
Lemma topk_bad_dropout n m w k d masks : matrix_is n m w -> 2 <= n -> 2 <= k -> ~ valid_dropout d -> topk_mst n n m k d masks true = Err.
Proof.
  intros HM Hn Hk HD. unfold topk_mst. replace (Nat.eqb k 0) with false by (symmetry; apply Nat.eqb_neq; lia). rewrite Nat.eqb_refl. cbn [negb].
  destruct (kruskal_reuse_nil n m w (fun _ _ => false) true HM ltac:(lia)) as (M & EM & HT & MX). rewrite EM. cbn [bind].
  destruct k as [|[|k]]; try lia. cbn [tloop pop_min h_mst h_inc h_exc app Nat.eqb]. rewrite (canon_id n M (tree_good n M HT)). cbn [map].
  destruct M as [|e M]; [destruct HT as [(_ & _ & L) _]; cbn in L; lia|]. cbn [branch meme existsb]. cbn zeta.
  unfold mst_with_constraints. rewrite (invalid_check d HD). reflexivity.
Qed.
