(** Values of equal regions; fetching folds (proofs). *)
From Coq Require Import List Arith Bool Reals ZArith Lia Lra Sorted.
From Verif Require Import Base ScopeModel ScopeProofs RegionModel RegionSpec RegionProofs CircuitModel LayerModel PicModel PicSpec PicVisit PicMat PicShare TqModel TqSpec TqLevel.
Import ListNotations.

Section Val.
Variable root : region.
Variable cls : layer_cls.
Variable K : nat.
Variable W : weights.
Variable leaf : scope -> nat -> R.
Notation tv := (tval root cls K W leaf).
Definition pvals (r : region) : list (nat -> R) :=
  map (fun jp => part_value root cls K W (rdepth r) (part_slot root r + fst jp) (map tv (snd jp))) (index_from 0 (r_children r)).
Lemma tval_leaf r : r_children r = [] -> tv r = leaf (r_scope r).
Proof. destruct r as [s ps]. cbn [r_children r_scope]. intros ->. reflexivity. Qed.
Lemma parts_eq h sl ps : forall j, (fix parts (j : nat) (l : list (list region)) : list (nat -> R) :=
        match l with [] => [] | p :: l' => part_value root cls K W h (sl + j) (map tv p) :: parts (S j) l' end) j ps =
  map (fun jp => part_value root cls K W h (sl + fst jp) (map tv (snd jp))) (index_from j ps).
Proof. induction ps as [|p ps IH]; intros j; [reflexivity|]. cbn [index_from map fst snd]. now rewrite <- IH. Qed.
Lemma tval_node r : r_children r <> [] -> tv r = region_value root W r (pvals r).
Proof.
  destruct r as [s [|p ps]]; cbn [r_children]; intros H; [contradiction|]. unfold pvals. cbn [r_children]. rewrite <- parts_eq. reflexivity.
Qed.

Lemma pvals_length r : length (pvals r) = length (r_children r).
Proof. unfold pvals. now rewrite map_length, index_from_length. Qed.
Lemma pvals_nth r j p : nth_error (r_children r) j = Some p -> nth j (pvals r) (fun _ => 0%R) = part_value root cls K W (rdepth r) (part_slot root r + j) (map tv p).
Proof.
  intros E. apply nth_error_nth. unfold pvals. rewrite nth_error_map, (index_from_nth _ 0 j p E). reflexivity.
Qed.
Lemma region_value_spec r k : r_children r <> [] -> region_value root W r (pvals r) k =
  if several r then bsum (length (r_children r)) (fun j => (w_mix W (mix_height root (rdepth r)) (mix_slot root r) (length (r_children r)) j k * nth j (pvals r) (fun _ => 0) k)%R)
  else nth 0 (pvals r) (fun _ => 0%R) k.
Proof.
  intros NE. unfold several. pose proof (pvals_length r) as L. rewrite <- L. unfold region_value. destruct (pvals r) as [|v [|v' l]] eqn:E.
  - cbn in L. destruct (r_children r); [contradiction|discriminate].
  - reflexivity.
  - reflexivity.
Qed.

Lemma part_value_ext h sl vs vs' o : Forall2 (fun a b : nat -> R => forall k, k < K -> a k = b k) vs vs' ->
  part_value root cls K W h sl vs o = part_value root cls K W h sl vs' o.
Proof.
  intros H. assert (N : forall c k, k < K -> nth c vs (fun _ => 0%R) k = nth c vs' (fun _ => 0%R) k).
  { clear -H. induction H as [|a b l l' E _ IH]; intros [|c] k Hk; cbn [nth]; auto. }
  assert (L : length vs = length vs'). { clear -H. induction H; cbn; congruence. }
  unfold part_value. rewrite L. destruct (tucker_at root cls h).
  - apply bsum_ext. intros i Hi. apply bsum_ext. intros j Hj. now rewrite !N.
  - apply bprod_ext. intros c _. apply bsum_ext. intros i Hi. now rewrite N.
Qed.

Hypothesis SO : forall r, reach root r -> sorted_scope (r_scope r).
Lemma F2_length {A B} (P : A -> B -> Prop) l l' : Forall2 P l l' -> length l = length l'.
Proof. induction 1; cbn; congruence. Qed.
Lemma F2_nth {A B} (P : A -> B -> Prop) l l' : Forall2 P l l' -> forall j a, nth_error l j = Some a -> exists b, nth_error l' j = Some b /\ P a b.
Proof. induction 1 as [|a b l l' H _ IH]; intros [|j] x E; cbn in E; try discriminate; [injection E as <-; now exists b|]. now apply IH. Qed.

Lemma tval_equal r : forall t, reach root r -> reach root t -> region_equal r t -> forall k, tv r k = tv t k.
Proof.
  induction r as [r IH] using region_ind_size. intros t Hr Ht E k.
  assert (HS : same r t = true) by (apply (same_iff root SO); assumption).
  assert (DR : rdepth r = rdepth t) by now apply rdepth_equal.
  assert (PS : part_slot root r = part_slot root t). { unfold part_slot. rewrite DR. now rewrite (before_same r t _ HS). }
  assert (MS : mix_slot root r = mix_slot root t). { unfold mix_slot. rewrite DR. now rewrite (before_same r t _ HS). }
  assert (SC : r_scope r = r_scope t). { pose proof (SO r Hr) as S1. pose proof (SO t Ht) as S2. inversion E as [s u ps qs A B C]; subst. cbn [r_scope] in *. destruct S1, S2. now apply scope_ext. }
  assert (CH : Forall2 (Forall2 region_equal) (r_children r) (r_children t)) by (inversion E; subst; assumption).
  destruct (r_children r) as [|p ps] eqn:EC.
  - inversion CH. rewrite (tval_leaf r EC), (tval_leaf t) by congruence. now rewrite SC.
  - assert (NR : r_children r <> []) by (rewrite EC; discriminate). assert (NT : r_children t <> []) by (intros N; rewrite N in CH; inversion CH).
    rewrite (tval_node r NR), (tval_node t NT). rewrite !region_value_spec by assumption. rewrite <- EC in CH. clear EC.
    assert (LC : length (r_children r) = length (r_children t)) by (eapply F2_length; exact CH).
    assert (NN : forall j k, j < length (r_children r) -> nth j (pvals r) (fun _ => 0%R) k = nth j (pvals t) (fun _ => 0%R) k).
    { intros j k' Hj. destruct (nth_error (r_children r) j) as [a|] eqn:Ea; [|apply nth_error_None in Ea; lia]. destruct (F2_nth _ _ _ CH j a Ea) as (b & Eb & Hab).
      rewrite (pvals_nth r j a Ea), (pvals_nth t j b Eb), DR, PS. apply part_value_ext.
      assert (IA : forall c, In c a -> is_child c r) by (intros c Hc; exists a; split; [eapply nth_error_In; exact Ea|exact Hc]).
      assert (IB : forall c, In c b -> is_child c t) by (intros c Hc; exists b; split; [eapply nth_error_In; exact Eb|exact Hc]).
      clear -IH Hr Ht Hab IA IB. induction Hab as [|x y a b E _ IHF]; [constructor|]. cbn [map]. constructor.
      - intros k Hk. apply IH; [apply IA; now left| | |exact E]; [apply (reach_child root r)|apply (reach_child root t)]; auto; [apply IA|apply IB]; now left.
      - apply IHF; intros c Hc; [apply IA|apply IB]; now right. }
    unfold several. rewrite LC, DR, MS. destruct (Nat.ltb 1 (length (r_children t))).
    + apply bsum_ext. intros j Hj. rewrite NN by lia. reflexivity.
    + apply NN. destruct (r_children r); [contradiction|cbn; lia].
Qed.
End Val.

(** ** fetching *)
Definition padl (pad : bool) : list fold := if pad then [fun _ => Fin 0] else [].
Definition pad_fold (ar : nat) (vs : list fold) : list fold := vs ++ repeat (fun _ => Fin 0%R) (ar - length vs).
Lemma pad_fold_nth ar vs c d : c < length vs -> nth c (pad_fold ar vs) d = nth c vs d.
Proof. intros H. unfold pad_fold. now apply app_nth1. Qed.
Lemma pad_fold_length ar vs : length vs <= ar -> length (pad_fold ar vs) = ar.
Proof. intros H. unfold pad_fold. rewrite app_length, repeat_length. lia. Qed.

Definition get {A} (cat : list A) (i : nat) : result A := match nth_error cat i with Some x => Ok x | None => Err end.
Lemma get_row (base_cat : list fold) pad ar row vs : Forall2 (fun i v => nth_error base_cat i = Some v) row vs -> (pad = false -> length row = ar) ->
  mapR (get (base_cat ++ padl pad)) (pad_row ar (length base_cat) row) = Ok (pad_fold ar vs).
Proof.
  intros H HP. apply mapR_ok. unfold pad_row, pad_fold. pose proof (F2_length _ _ _ H) as L. apply Forall2_app.
  - clear HP L. induction H as [|i v row vs E _ IH]; constructor; [|exact IH]. unfold get. rewrite nth_error_app1 by (apply nth_error_Some; congruence). now rewrite E.
  - rewrite <- L. destruct pad; [|rewrite (HP eq_refl), Nat.sub_diag; constructor].
    generalize (ar - length row) as n. induction n as [|n IH]; [constructor|]. cbn [repeat]. constructor; [|exact IH]. unfold get. rewrite nth_error_app2 by lia. rewrite Nat.sub_diag. reflexivity.
Qed.
Lemma get_rows (base_cat : list fold) pad ar rows vss : Forall2 (Forall2 (fun i v => nth_error base_cat i = Some v)) rows vss -> (pad = false -> forall row, In row rows -> length row = ar) ->
  mapR (mapR (get (base_cat ++ padl pad))) (map (pad_row ar (length base_cat)) rows) = Ok (map (pad_fold ar) vss).
Proof.
  intros H HP. apply mapR_ok. induction H as [|row vs rows vss E _ IH]; [constructor|]. cbn [map]. constructor; [apply get_row; [exact E|intros Hp; apply HP; [exact Hp|now left]]|].
  apply IH. intros Hp r Hr. apply HP; [exact Hp|now right].
Qed.

Lemma masked_row pad ar total rows i row c : nth_error rows i = Some row -> (forall x, In x row -> x < total) -> length row <= ar -> (pad = false -> length row = ar) -> c < ar ->
  masked (mask_of pad total (map (pad_row ar total) rows)) i c = Nat.ltb c (length row).
Proof.
  intros E HT HL HP Hc. unfold mask_of. destruct pad.
  - cbn [masked]. rewrite (nth_error_nth _ _ [] (x := map (fun i => Nat.ltb i total) (pad_row ar total row))).
    2:{ rewrite map_map, nth_error_map, E. reflexivity. }
    unfold pad_row. rewrite map_app. destruct (Nat.ltb_spec c (length row)) as [H|H].
    + rewrite app_nth1 by (rewrite map_length; exact H). rewrite (nth_indep _ false (Nat.ltb 0 total)) by (rewrite map_length; exact H). rewrite (map_nth (fun i => Nat.ltb i total)). apply Nat.ltb_lt. apply HT. now apply nth_In.
    + rewrite app_nth2 by (rewrite map_length; exact H). rewrite map_length.
      assert (G : forall n j, nth j (map (fun i => Nat.ltb i total) (repeat total n)) false = false).
      { induction n as [|n IH]; intros [|j]; cbn [repeat map nth]; try reflexivity; [apply Nat.ltb_irrefl|apply IH]. }
      apply G.
  - cbn [masked]. symmetry. apply Nat.ltb_lt. rewrite (HP eq_refl). exact Hc.
Qed.

(** folds by layer *)
Lemma base_nth (outs : list (nat * list fold)) ids inputs l o f :
  Forall2 (fun i b => nth_error outs i = Some b) ids inputs -> In l ids -> nth_error outs l = Some o -> f < length (snd o) ->
  nth_error (flat_map snd inputs) (base (map (fun b => length (snd b)) outs) ids l + f) = nth_error (snd o) f.
Proof.
  intros H. revert l. induction H as [|i b ids inputs E _ IH]; intros l Hin El Hf; [destruct Hin|]. cbn [base flat_map]. destruct (Nat.eqb_spec i l) as [->|NE].
  - assert (b = o) by congruence. subst b. cbn [Nat.add]. now apply nth_error_app1.
  - destruct Hin as [->|Hin]; [contradiction|]. rewrite (nth_error_nth _ _ 0 (x := length (snd b))) by (rewrite nth_error_map, E; reflexivity).
    rewrite nth_error_app2 by lia. replace (_ + _ + f - _) with (base (map (fun b => length (snd b)) outs) ids l + f) by lia. now apply IH.
Qed.
Lemma total_length (outs : list (nat * list fold)) ids inputs : Forall2 (fun i b => nth_error outs i = Some b) ids inputs ->
  length (flat_map snd inputs) = list_sum (map (fun i => nth i (map (fun b => length (snd b)) outs) 0) ids).
Proof.
  induction 1 as [|i b ids inputs E _ IH]; [reflexivity|]. cbn [flat_map map]. rewrite app_length, IH. cbn [list_sum fold_right]. f_equal.
  symmetry. apply nth_error_nth. now rewrite nth_error_map, E.
Qed.
