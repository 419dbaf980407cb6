(** One height of a TensorizedQPC (proofs). *)
From Coq Require Import List Arith Bool Reals ZArith Lia Lra Sorted.
From Verif Require Import Base ScopeModel ScopeProofs RegionModel RegionSpec RegionProofs CircuitModel LayerModel PicModel PicSpec PicVisit PicMat PicShare TqModel TqSpec TqParam TqLevel TqVal.
Import ListNotations.

Lemma eval_tucker_nth K Wf ins i row : nth_error ins i = Some row -> exists v, nth_error (eval_tucker K Wf ins) i = Some v /\
  forall o, (forall a b, (a < K)%nat -> (b < K)%nat -> 0 <= Wf i a b o)%R ->
  pr (v o) = bsum K (fun a => bsum K (fun b => (Wf i a b o * (pr (nth 0 row (fun _ => NInf) a) * pr (nth 1 row (fun _ => NInf) b)))%R)).
Proof.
  intros E. eexists. unfold eval_tucker. rewrite nth_error_map. erewrite index_from_nth by exact E. split; [reflexivity|]. cbn [fst snd Nat.add]. intros o HW.
  rewrite pr_lse. apply bsum_ext. intros a Ha. rewrite pr_lse. apply bsum_ext. intros b Hb. rewrite !pr_ladd, pr_lfrom by now apply HW. reflexivity.
Qed.
Lemma eval_cp_nth K Wf m ins i row : nth_error ins i = Some row -> exists v, nth_error (eval_cp K Wf m ins) i = Some v /\
  forall o, (forall c a, (c < length row)%nat -> (a < K)%nat -> 0 <= Wf i c a o)%R ->
  pr (v o) = bprod (length row) (fun c => if masked m i c then bsum K (fun a => (Wf i c a o * pr (nth c row (fun _ => NInf) a))%R) else 1%R).
Proof.
  intros E. eexists. unfold eval_cp. rewrite nth_error_map. erewrite index_from_nth by exact E. split; [reflexivity|]. cbn [fst snd Nat.add]. intros o HW.
  rewrite pr_ladds. apply bprod_ext. intros c Hc. destruct (masked m i c); [|apply pr_Fin0]. rewrite pr_lse. apply bsum_ext. intros a Ha. rewrite pr_ladd, pr_lfrom by now apply HW. reflexivity.
Qed.
Lemma eval_mixing_nth w m ins i row : nth_error ins i = Some row -> exists v, nth_error (eval_mixing w m ins) i = Some v /\
  forall k, (forall c, (c < length row)%nat -> 0 <= w i c k)%R ->
  pr (v k) = bsum (length row) (fun c => (w i c k * (if masked m i c then pr (nth c row (fun _ => NInf) k) else 0))%R).
Proof.
  intros E. eexists. unfold eval_mixing. rewrite nth_error_map. erewrite index_from_nth by exact E. split; [reflexivity|]. cbn [fst snd Nat.add]. intros k HW.
  rewrite pr_lse. apply bsum_ext. intros c Hc. rewrite pr_ladd, pr_lfrom by now apply HW. destruct (masked m i c); reflexivity.
Qed.

Lemma F2_exists {A B} (P : A -> B -> Prop) l : (forall a, In a l -> exists b, P a b) -> exists l', Forall2 P l l'.
Proof.
  induction l as [|a l IH]; intros H; [exists []; constructor|]. destruct (H a (or_introl eq_refl)) as (b & Hb). destruct IH as (l' & Hl); [intros x Hx; apply H; now right|]. exists (b :: l'). now constructor.
Qed.
Lemma F2_map_r {A B C} (P : A -> C -> Prop) (f : B -> C) l l' : Forall2 (fun a b => P a (f b)) l l' -> Forall2 P l (map f l').
Proof. induction 1; constructor; auto. Qed.
Lemma F2_map_l {A B C} (P : C -> B -> Prop) (f : A -> C) l l' : Forall2 (fun a b => P (f a) b) l l' -> Forall2 P (map f l) l'.
Proof. induction 1; constructor; auto. Qed.
Lemma F2_same {A B C} (f : A -> B) (g : A -> C) (P : B -> C -> Prop) l : (forall a, In a l -> P (f a) (g a)) -> Forall2 P (map f l) (map g l).
Proof. induction l as [|a l IH]; intros H; cbn [map]; constructor; [apply H; now left|apply IH; intros x Hx; apply H; now right]. Qed.
Lemma F2_in_r {A B} (P : A -> B -> Prop) l l' b : Forall2 P l l' -> In b l' -> exists a, In a l /\ P a b.
Proof. induction 1 as [|x y l l' H _ IH]; [intros []|]. intros [<-|Hin]; [exists x; split; [now left|exact H]|]. destruct (IH Hin) as (a & Ha & HP). exists a. split; [now right|exact HP]. Qed.
Lemma bsum_pos_in n f i : (forall j, (j < n)%nat -> (0 <= f j)%R) -> i < n -> (0 < f i)%R -> (0 < bsum n f)%R.
Proof.
  intros H Hi Hf. induction n as [|n IH]; [lia|]. cbn [bsum]. destruct (Nat.eq_dec i n) as [->|NE].
  - assert (0 <= bsum n f)%R by (apply bsum_nonneg; intros; apply H; lia). lra.
  - assert (0 < bsum n f)%R by (apply IH; [intros; apply H; lia|lia]). pose proof (H n ltac:(lia)). lra.
Qed.
Lemma bprod_split n m f : (n <= m)%nat -> (forall i, (n <= i < m)%nat -> f i = 1%R) -> bprod m f = bprod n f.
Proof.
  induction m as [|m IH]; intros H HF; [now replace n with 0 by lia|]. destruct (Nat.eq_dec n (S m)) as [->|NE]; [reflexivity|]. cbn [bprod]. rewrite IH by (try lia; intros; apply HF; lia). rewrite (HF m) by lia. ring.
Qed.
Lemma bsum_split n m f : (n <= m)%nat -> (forall i, (n <= i < m)%nat -> f i = 0%R) -> bsum m f = bsum n f.
Proof.
  induction m as [|m IH]; intros H HF; [now replace n with 0 by lia|]. destruct (Nat.eq_dec n (S m)) as [->|NE]; [reflexivity|]. cbn [bsum]. rewrite IH by (try lia; intros; apply HF; lia). rewrite (HF m) by lia. ring.
Qed.

(** the layers of one height as the code builds them *)
Definition p_arity_of (lparts : list (region * list region)) := list_max (map (fun rp => length (snd rp)) lparts).
Definition p_pad_of (lparts : list (region * list region)) := existsb (fun rp => Nat.ltb (length (snd rp)) (p_arity_of lparts)) lparts.
Definition s1_of (out : nat) (cls : layer_cls) (st : bstate) (lparts : list (region * list region)) (found : list (list (nat * nat))) : step :=
  let ids := sortu (map snd (concat found)) in
  let total := list_sum (map (fun i => nth i (b_counts st) 0) ids) in
  let rows := map (fun fs => pad_row (p_arity_of lparts) total (map (fun fl => base (b_counts st) ids (snd fl) + fst fl) fs)) found in
  mkStep (p_pad_of lparts) ids rows (Partition (b_np st) (mkPart (choose cls (p_arity_of lparts) (p_pad_of lparts)) (length lparts) (p_arity_of lparts) out (mask_of (p_pad_of lparts) total rows))).

Lemma arity_LP l : map (fun rp : region * list region => length (snd rp)) (LP l) = flat_map (fun r => map (@length region) (r_children r)) l.
Proof. induction l as [|r l IH]; [reflexivity|]. unfold LP. cbn [flat_map]. fold (LP l). rewrite map_app, IH. f_equal. rewrite map_map. reflexivity. Qed.
Lemma LP_In l r p : In (r, p) (LP l) <-> In r l /\ In p (r_children r).
Proof.
  unfold LP. rewrite in_flat_map. split.
  - intros (x & Hx & H). apply in_map_iff in H. destruct H as (p' & E & Hp). injection E as -> ->. now split.
  - intros [H1 H2]. exists r. split; [exact H1|]. apply in_map_iff. now exists p.
Qed.
Lemma p_arity_ge lp rp : In rp lp -> length (snd rp) <= p_arity_of lp.
Proof. intros H. unfold p_arity_of. apply list_max_In. apply (in_map (fun rp => length (snd rp)) lp rp H). Qed.
Lemma pad_false lp rp : p_pad_of lp = false -> In rp lp -> length (snd rp) = p_arity_of lp.
Proof.
  intros H Hin. pose proof (p_arity_ge lp rp Hin). destruct (Nat.eq_dec (length (snd rp)) (p_arity_of lp)) as [E|NE]; [exact E|]. exfalso.
  assert (HT : p_pad_of lp = true) by (apply existsb_exists; exists rp; split; [exact Hin|apply Nat.ltb_lt; lia]). congruence.
Qed.
Lemma choose_eq root cls h : level root h <> [] -> (forall r, In r (level root h) -> r_children r <> []) ->
  choose cls (p_arity_of (LP (level root h))) (p_pad_of (LP (level root h))) = if tucker_at root cls h then Tucker else Cp.
Proof.
  intros NE NC. set (lp := LP (level root h)).
  assert (HS : (Nat.eqb (p_arity_of lp) 2 && negb (p_pad_of lp))%bool = all_binary root h).
  { apply eq_true_iff_eq. unfold all_binary. rewrite andb_true_iff, negb_true_iff, Nat.eqb_eq, forallb_forall. split.
    - intros [H1 H2] r Hr. apply forallb_forall. intros p Hp. apply Nat.eqb_eq. rewrite <- H1. apply (pad_false lp (r, p) H2). apply LP_In. now split.
    - intros H. assert (HL : forall rp, In rp lp -> length (snd rp) = 2).
      { intros [r p] Hin. apply LP_In in Hin. destruct Hin as [Hr Hp]. specialize (H r Hr). rewrite forallb_forall in H. apply Nat.eqb_eq. now apply H. }
      assert (HA : p_arity_of lp = 2).
      { apply Nat.le_antisymm.
        - apply list_max_le, Forall_forall. intros n Hn. apply in_map_iff in Hn. destruct Hn as (rp & <- & Hrp). now rewrite HL.
        - destruct (level root h) as [|r l] eqn:EL; [contradiction|]. specialize (NC r (or_introl eq_refl)). destruct (r_children r) as [|p ps] eqn:EC; [contradiction|].
          assert (Hin : In (r, p) lp) by (apply LP_In; rewrite EC; split; now left). rewrite <- (HL _ Hin). now apply p_arity_ge. }
      split; [exact HA|]. destruct (p_pad_of lp) eqn:EP; [|reflexivity]. apply existsb_exists in EP. destruct EP as (rp & Hin & Hlt). apply Nat.ltb_lt in Hlt. rewrite HA, (HL rp Hin) in Hlt. lia. }
  unfold choose, tucker_at. rewrite HS. destruct cls, (all_binary root h); reflexivity.
Qed.
Lemma F2_in_lr {A B} (P : A -> B -> Prop) l l' : Forall2 P l l' -> forall j b, nth_error l' j = Some b -> exists a, nth_error l j = Some a /\ P a b.
Proof. induction 1 as [|x y l l' H _ IH]; intros [|j] b E; cbn in E; try discriminate; [injection E as <-; now exists x|now apply IH]. Qed.

Section Height.
Variable root : region.
Variable cls : layer_cls.
Variable q : rule.
Variable eps : R.
Variable n_chunks : nat.
Variable L : nat -> nat -> list R -> R.
Variable mlog : nat -> nat -> nat -> nat -> R.
Variable leaf : scope -> nat -> R.
Hypothesis SO : forall r, reach root r -> sorted_scope (r_scope r).
Hypothesis RG : rg_ok root.
Hypothesis HN : (1 <= n_chunks).
Hypothesis HW : length (wts q) = length (pts q).
Hypothesis W0 : forall w, In w (wts q) -> (0 <= w)%R.
Hypothesis W1 : exists w, In w (wts q) /\ (0 < w)%R.
Hypothesis EP : (0 < eps)%R.
Hypothesis L0 : forall i f zs, (0 <= L i f zs)%R.
Let K := length (pts q).
Let W := qpc_weights q eps L mlog root.
Notation tv := (tval root cls K W leaf).
Definition out_of (h : nat) := if Nat.ltb h (rdepth root) then K else 1.

Lemma wsum_pos (F : nat -> R) : (forall i, 0 < F i)%R -> (0 < bsum K (fun i => F i * nth i (wts q) 0))%R.
Proof.
  intros HF. destruct W1 as (w & Hin & Hw). destruct (In_nth _ _ 0%R Hin) as (i & Hi & E). rewrite HW in Hi. apply (bsum_pos_in K _ i); [|exact Hi|].
  - intros j Hj. apply Rmult_le_pos; [apply Rlt_le, HF|]. apply W0, nth_In. rewrite HW. exact Hj.
  - apply Rmult_lt_0_compat; [apply HF|]. rewrite E. exact Hw.
Qed.
Lemma nth_w i : (0 <= nth i (wts q) 0)%R.
Proof. destruct (Nat.lt_ge_cases i (length (wts q))) as [H|H]; [apply W0, nth_In, H|rewrite nth_overflow by exact H; lra]. Qed.
Lemma normalise_nonneg F i : (forall z, 0 < F z)%R -> (0 <= normalise q F i)%R.
Proof.
  intros HF. unfold normalise. apply Rmult_le_pos; [apply Rmult_le_pos; [apply Rlt_le, HF|apply nth_w]|]. apply Rlt_le, Rinv_0_lt_compat. apply (wsum_pos (fun i => F (nth i (pts q) 0%R))). intros j. apply HF.
Qed.
Lemma normalise2_nonneg F i j : (forall y z, 0 < F y z)%R -> (0 <= normalise2 q F i j)%R.
Proof.
  intros HF. unfold normalise2. apply Rmult_le_pos; [apply Rmult_le_pos; [apply Rlt_le, HF|apply Rmult_le_pos; apply nth_w]|]. apply Rlt_le, Rinv_0_lt_compat.
  fold K. rewrite (bsum_ext K _ (fun a => bsum K (fun b => F (nth a (pts q) 0) (nth b (pts q) 0) * nth b (wts q) 0) * nth a (wts q) 0))%R.
  - apply (wsum_pos (fun a => bsum K (fun b => F (nth a (pts q) 0) (nth b (pts q) 0) * nth b (wts q) 0)))%R. intros a. apply (wsum_pos (fun b => F (nth a (pts q) 0) (nth b (pts q) 0)))%R. intros b. apply HF.
  - intros a Ha. rewrite <- bsum_scal_r. apply bsum_ext. intros b Hb. ring.
Qed.

Lemma tucker_param_eq h l f a b o : (p_out l = out_of h) -> 1 <= h <= rdepth root -> a < K -> b < K -> o < p_out l ->
  tucker_param q eps n_chunks L (h - 1) l f a b o = w_tk W h f a b o.
Proof.
  intros EO Hh Ha Hb Ho. unfold tucker_param, layer_args, W, qpc_weights, w_tk, out_of in *. fold K. destruct (Nat.eqb_spec (p_out l) 1) as [E1|E1].
  - assert (ET : (Nat.eqb h (rdepth root) || Nat.eqb K 1)%bool = true).
    { destruct (Nat.ltb_spec h (rdepth root)) as [H|H]; apply orb_true_iff; [right|left]; apply Nat.eqb_eq; lia. }
    rewrite ET. now apply param_tk1.
  - destruct (Nat.ltb_spec h (rdepth root)) as [H|H]; [|lia].
    assert (ET : (Nat.eqb h (rdepth root) || Nat.eqb K 1)%bool = false) by (apply orb_false_iff; split; apply Nat.eqb_neq; lia).
    rewrite ET. apply param_tk2; try assumption. fold K. lia.
Qed.
Lemma cp_param_eq h l f c a o : (p_out l = out_of h) -> p_arity l = max_arity root h -> 1 <= h <= rdepth root -> a < K -> o < p_out l ->
  cp_param q eps n_chunks L (h - 1) l f c a o = w_cp W h f c a o.
Proof.
  intros EO EA Hh Ha Ho. unfold cp_param, layer_args, W, qpc_weights, w_cp, out_of in *. fold K. rewrite EA. destruct (Nat.eqb_spec (p_out l) 1) as [E1|E1].
  - assert (ET : (Nat.eqb h (rdepth root) || Nat.eqb K 1)%bool = true).
    { destruct (Nat.ltb_spec h (rdepth root)) as [H|H]; apply orb_true_iff; [right|left]; apply Nat.eqb_eq; lia. }
    rewrite ET. cbn [latent_at app]. now apply param_cp1.
  - destruct (Nat.ltb_spec h (rdepth root)) as [H|H]; [|lia].
    assert (ET : (Nat.eqb h (rdepth root) || Nat.eqb K 1)%bool = false) by (apply orb_false_iff; split; apply Nat.eqb_neq; lia).
    rewrite ET. cbn [latent_at app]. apply param_cp2; try assumption. fold K. lia.
Qed.
Lemma w_tk_nonneg h f a b o : (0 <= w_tk W h f a b o)%R.
Proof. unfold W, qpc_weights, w_tk. destruct (_ || _)%bool; apply normalise2_nonneg; intros y z; match goal with |- (0 < L ?i ?f ?zs + eps)%R => pose proof (L0 i f zs) end; lra. Qed.
Lemma w_cp_nonneg h f c a o : (0 <= w_cp W h f c a o)%R.
Proof. unfold W, qpc_weights, w_cp. apply normalise_nonneg; intros z; match goal with |- (0 < L ?i ?f ?zs + eps)%R => pose proof (L0 i f zs) end; lra. Qed.

Record Sim (h : nat) (st : bstate) (outs : list (nat * list fold)) : Prop := {
  sim_counts : b_counts st = map (fun o => length (snd o)) outs;
  sim_units : forall o, In o outs -> fst o = K;
  sim_np : b_np st = h - 1;
  sim_nm : b_nm st = mix_height root h;
  sim_val : forall r, In r (post_order root) -> rdepth r < h -> exists f l folds v, find_fold r (b_fold st) = Ok (f, l) /\
    nth_error outs l = Some (K, folds) /\ nth_error folds f = Some v /\ forall k, k < K -> pr (v k) = tv r k }.

Lemma sim_child h st outs r c : Sim h st outs -> reach root r -> rdepth r = h -> is_child c r -> exists (d : nat * nat * fold),
  find_fold c (b_fold st) = Ok (fst d) /\ (exists folds, nth_error outs (snd (fst d)) = Some (K, folds) /\ nth_error folds (fst (fst d)) = Some (snd d)) /\ forall k, k < K -> pr (snd d k) = tv c k.
Proof.
  intros HS Hr Hd Hc. assert (Rc : reach root c) by (econstructor; eassumption). destruct (po_complete root SO c Rc) as (x & Hx & E).
  assert (Dx : rdepth x < h). { rewrite <- (same_rdepth c x E). pose proof (rdepth_child c r Hc). lia. }
  destruct (sim_val _ _ _ HS x Hx Dx) as (f & l & folds & v & E1 & E2 & E3 & E4). exists (f, l, v). cbn [fst snd]. split; [rewrite (find_fold_same c x _ E); exact E1|].
  split; [exists folds; now split|]. intros k Hk. rewrite E4 by exact Hk. symmetry. apply tval_equal; [exact SO|exact Rc|apply po_reach, Hx|apply same_equal, E].
Qed.

Lemma part_step h st outs : 1 <= h <= rdepth root -> Sim h st outs -> exists found pf,
  mapR (fun rp => mapR (fun c => find_fold c (b_fold st)) (snd rp)) (LP (level root h)) = Ok found /\
  eval_step q eps n_chunks L mlog outs (s1_of (out_of h) cls st (LP (level root h)) found) = Ok (outs ++ [(out_of h, pf)]) /\
  length pf = length (LP (level root h)) /\
  forall i r p, nth_error (LP (level root h)) i = Some (r, p) -> exists v, nth_error pf i = Some v /\
    forall o, o < out_of h -> pr (v o) = part_value root cls K W h i (map tv p) o.
Proof.
  intros Hh HS. set (lp := LP (level root h)). 
  assert (LR : forall r, In r (level root h) -> reach root r /\ rdepth r = h) by (intros r Hr; apply level_In in Hr; destruct Hr; split; [now apply po_reach|assumption]).
  assert (LC : forall r, In r (level root h) -> r_children r <> []). { intros r Hr N. destruct (LR r Hr) as [_ D]. destruct r as [s ps]. cbn [r_children] in N. subst ps. cbn in D. lia. }
  assert (LN : level root h <> []) by (apply level_nonempty; [exact SO|lia|lia]).
  assert (PN : forall rp, In rp lp -> 2 <= length (snd rp)). { intros [r p] Hin. apply LP_In in Hin. destruct Hin as [Hr Hp]. destruct (LR r Hr) as [Rr _]. destruct (RG r Rr) as (_ & _ & _ & HP). apply (HP p Hp). }
  set (P := fun (c : region) (d : nat * nat * fold) => find_fold c (b_fold st) = Ok (fst d) /\ (exists folds, nth_error outs (snd (fst d)) = Some (K, folds) /\ nth_error folds (fst (fst d)) = Some (snd d)) /\ forall k, k < K -> pr (snd d k) = tv c k).
  assert (HD : exists data, Forall2 (fun (rp : region * list region) ds => Forall2 P (snd rp) ds) lp data).
  { apply F2_exists. intros [r p] Hin. apply LP_In in Hin. destruct Hin as [Hr Hp]. cbn [snd]. apply F2_exists. intros c Hc. destruct (LR r Hr) as [Rr Dr]. eapply sim_child; try eassumption. exists p. now split. }
  destruct HD as (data & HD). set (found := map (map fst) data). set (vss := map (map snd) data).
  assert (HF : mapR (fun rp => mapR (fun c => find_fold c (b_fold st)) (snd rp)) lp = Ok found).
  { apply mapR_ok, F2_map_r. clear -HD. induction HD as [|rp ds lp data H _ IH]; constructor; [|exact IH]. apply mapR_ok, F2_map_r. clear -H. induction H as [|c d p ds H _ IH]; constructor; [apply H|exact IH]. }
  set (ids := sortu (map snd (concat found))).
  assert (HI : forall d ds, In ds data -> In d ds -> In (snd (fst d)) ids).
  { intros d ds Hds Hd. apply sortu_In, in_map, in_concat. exists (map fst ds). split; [apply in_map, Hds|apply in_map, Hd]. }
  assert (HP : forall d ds, In ds data -> In d ds -> exists folds, nth_error outs (snd (fst d)) = Some (K, folds) /\ nth_error folds (fst (fst d)) = Some (snd d)).
  { intros d ds Hds Hd. destruct (F2_in_r _ _ _ _ HD Hds) as (rp & _ & HF2). destruct (F2_in_r _ _ _ _ HF2 Hd) as (c & _ & _ & H & _). exact H. }
  assert (HO : forall i, In i ids -> exists o, nth_error outs i = Some o /\ fst o = K).
  { intros i Hi. apply sortu_In, in_map_iff in Hi. destruct Hi as (fl & <- & Hfl). apply in_concat in Hfl. destruct Hfl as (fs & Hfs & Hfl). unfold found in Hfs. apply in_map_iff in Hfs. destruct Hfs as (ds & <- & Hds). apply in_map_iff in Hfl. destruct Hfl as (d & <- & Hd).
    destruct (HP d ds Hds Hd) as (folds & E & _). exists (K, folds). now split. }
  assert (HIN : exists inputs, Forall2 (fun i o => nth_error outs i = Some o) ids inputs) by (apply F2_exists; intros i Hi; destruct (HO i Hi) as (o & E & _); now exists o).
  destruct HIN as (inputs & HIN).
  assert (HU : forall o, In o inputs -> fst o = K).
  { intros o Ho. destruct (F2_in_r _ _ _ _ HIN Ho) as (i & Hi & E). destruct (HO i Hi) as (o' & E' & H). congruence. }
  assert (NI : inputs <> []).
  { intros N. rewrite N in HIN. assert (EI : ids = []) by (inversion HIN; reflexivity). destruct (level root h) as [|r l] eqn:EL; [contradiction|]. specialize (LC r (or_introl eq_refl)). destruct (r_children r) as [|p ps] eqn:EC; [contradiction|].
    assert (Hin : In (r, p) lp) by (apply LP_In; rewrite EC; split; now left). pose proof (PN _ Hin) as L2. cbn [snd] in L2. destruct (F2_in _ _ _ _ HD Hin) as (ds & Hds & H2). cbn [snd] in H2. destruct H2 as [|c d p' ds' _ _]; [cbn in L2; lia|].
    pose proof (HI d _ Hds (or_introl eq_refl)) as X. rewrite EI in X. destruct X. }
  remember (flat_map snd inputs) as catl eqn:Ecat. set (total := list_sum (map (fun i => nth i (b_counts st) 0) ids)).
  assert (ET : total = length catl). { unfold total. rewrite Ecat, (sim_counts _ _ _ HS). symmetry. now apply total_length. }
  set (rows0 := map (map (fun fl : nat * nat => base (b_counts st) ids (snd fl) + fst fl)) found).
  assert (HR : Forall2 (Forall2 (fun i v => nth_error catl i = Some v)) rows0 vss).
  { unfold rows0, found, vss. rewrite map_map. apply F2_same. intros ds Hds. rewrite map_map. apply F2_same. intros d Hd. destruct (HP d ds Hds Hd) as (folds & E1 & E2).
    rewrite (sim_counts _ _ _ HS). rewrite Ecat. rewrite (base_nth outs ids inputs (snd (fst d)) (K, folds) (fst (fst d)) HIN (HI d ds Hds Hd) E1); [exact E2|]. cbn [snd]. apply nth_error_Some. congruence. }
  assert (LD : Forall2 (fun (rp : region * list region) ds => length (snd rp) = length ds) lp data) by (clear -HD; induction HD; constructor; [now apply F2_length in H|assumption]).
  assert (LRow : forall row, In row rows0 -> exists rp, In rp lp /\ length row = length (snd rp)).
  { intros row Hrow. unfold rows0, found in Hrow. rewrite map_map in Hrow. apply in_map_iff in Hrow. destruct Hrow as (ds & <- & Hds). rewrite !map_length. destruct (F2_in_r _ _ _ _ LD Hds) as (rp & Hrp & E). exists rp. split; [exact Hrp|]. now rewrite E. }
  set (ar := p_arity_of lp). set (pad := p_pad_of lp).
  assert (HPD : pad = false -> forall row, In row rows0 -> length row = ar). { intros Hp row Hrow. destruct (LRow row Hrow) as (rp & Hrp & ->). now apply pad_false. }
  pose proof (get_rows catl pad ar rows0 vss HR HPD) as HG.
  set (lay := mkPart (choose cls ar pad) (length lp) ar (out_of h) (mask_of pad total (map (pad_row ar total) rows0))).
  set (ins := map (pad_fold ar) vss) in *.
  set (pf := if tucker_at root cls h then eval_tucker K (tucker_param q eps n_chunks L (b_np st) lay) ins else eval_cp K (cp_param q eps n_chunks L (b_np st) lay) (p_mask lay) ins).
  assert (CH : choose cls ar pad = if tucker_at root cls h then Tucker else Cp) by (apply choose_eq; assumption).
  exists found, pf. split; [exact HF|]. split; [|split].
  - unfold s1_of. fold ids. fold total. fold lp ar pad. replace (map (fun fs => pad_row ar total (map (fun fl => base (b_counts st) ids (snd fl) + fst fl) fs)) found) with (map (pad_row ar total) rows0) by (unfold rows0; rewrite map_map; reflexivity).
    fold lay. unfold eval_step. cbn [s_in s_pad s_idx s_op]. rewrite (mapR_ok _ ids inputs).
    2:{ clear -HIN. induction HIN as [|i o ids inputs E _ IH]; constructor; [|exact IH]. now rewrite E. }
    cbn [bind]. destruct inputs as [|[u fs0] inputs'] eqn:EI; [contradiction|]. rewrite <- EI in *.
    assert (EU : u = K) by (apply (HU (u, fs0)); rewrite EI; now left). subst u.
    replace (forallb (fun o => Nat.eqb (fst o) K) inputs) with true by (symmetry; apply forallb_forall; intros o Ho; apply Nat.eqb_eq, HU, Ho). cbn [negb].
    rewrite <- Ecat. rewrite ET. match goal with |- bind ?X _ = _ => replace X with (@Ok (list (list fold)) ins) by (symmetry; exact HG) end. cbn [bind]. fold K. rewrite Nat.eqb_refl. cbn [negb].
    change (p_kind lay) with (choose cls ar pad). rewrite CH. unfold pf. destruct (tucker_at root cls h) eqn:TK.
    + assert (A2 : ar = 2).
      { unfold choose in CH. destruct (Nat.eqb_spec ar 2) as [E|NE]; [exact E|]. cbn [andb] in CH. destruct cls; discriminate. }
      change (p_arity lay) with ar. rewrite A2. cbn [Nat.eqb negb]. reflexivity.
    + reflexivity.
  - unfold pf, ins, vss. rewrite (F2_length _ _ _ HD). destruct (tucker_at root cls h); [unfold eval_tucker|unfold eval_cp]; now rewrite map_length, index_from_length, !map_length.
  - intros i r p Ei. destruct (F2_nth _ _ _ HD i (r, p) Ei) as (ds & Eds & H2). cbn [snd] in H2.
    assert (Hin : In (r, p) lp) by (eapply nth_error_In; exact Ei). pose proof (PN _ Hin) as L2. cbn [snd] in L2. pose proof (F2_length _ _ _ H2) as LDs.
    assert (Lar : length p <= ar) by (apply (p_arity_ge lp (r, p) Hin)).
    assert (Eins : nth_error ins i = Some (pad_fold ar (map snd ds))) by (unfold ins, vss; rewrite !nth_error_map, Eds; reflexivity).
    assert (Enp : b_np st = h - 1) by (apply (sim_np _ _ _ HS)).
    assert (HV : forall c k, c < length p -> k < K -> pr (nth c (pad_fold ar (map snd ds)) (fun _ => NInf) k) = nth c (map tv p) (fun _ => 0%R) k).
    { intros c k Hc Hk. rewrite pad_fold_nth by (rewrite map_length; lia). destruct (nth_error p c) as [x|] eqn:Ex; [|apply nth_error_None in Ex; lia]. destruct (F2_nth _ _ _ H2 c x Ex) as (d & Ed & _ & _ & HV).
      rewrite (nth_error_nth _ _ _ (x := snd d)) by (rewrite nth_error_map, Ed; reflexivity). rewrite (nth_error_nth _ _ _ (x := tv x)) by (rewrite nth_error_map, Ex; reflexivity). now apply HV. }
    unfold pf. destruct (tucker_at root cls h) eqn:TK.
    + destruct (eval_tucker_nth K (tucker_param q eps n_chunks L (b_np st) lay) ins i _ Eins) as (v & Ev & HE). exists v. split; [exact Ev|]. intros o Ho.
      assert (EQ : forall a b, a < K -> b < K -> tucker_param q eps n_chunks L (b_np st) lay i a b o = w_tk W h i a b o) by (intros a b Ha Hb; rewrite Enp; apply tucker_param_eq; try assumption; reflexivity).
      rewrite HE by (intros a b Ha Hb; rewrite EQ by assumption; apply w_tk_nonneg). unfold part_value. rewrite TK. apply bsum_ext. intros a Ha. apply bsum_ext. intros b Hb. rewrite EQ by assumption.
      rewrite !HV by (assumption || lia). reflexivity.
    + destruct (eval_cp_nth K (cp_param q eps n_chunks L (b_np st) lay) (p_mask lay) ins i _ Eins) as (v & Ev & HE). exists v. split; [exact Ev|]. intros o Ho.
      assert (EQ : forall c a, a < K -> cp_param q eps n_chunks L (b_np st) lay i c a o = w_cp W h i c a o).
      { intros c a Ha. rewrite Enp. apply cp_param_eq; try assumption; try reflexivity. change (p_arity lay) with ar. unfold ar, p_arity_of, lp, max_arity. now rewrite arity_LP. }
      rewrite HE by (intros c a _ Ha; rewrite EQ by assumption; apply w_cp_nonneg). rewrite pad_fold_length by (rewrite map_length; lia). unfold part_value. rewrite TK, map_length.
      assert (Erow : nth_error rows0 i = Some (map (fun fl => base (b_counts st) ids (snd fl) + fst fl) (map fst ds))) by (unfold rows0, found; rewrite !nth_error_map, Eds; reflexivity).
      assert (MK : forall c, c < ar -> masked (p_mask lay) i c = Nat.ltb c (length p)).
      { intros c Hc. change (p_mask lay) with (mask_of pad total (map (pad_row ar total) rows0)). rewrite (masked_row pad ar total rows0 i _ c Erow); [rewrite !map_length; now rewrite LDs| |rewrite !map_length; lia| |exact Hc].
        - intros x Hx. destruct (F2_in _ _ _ _ HR (nth_error_In _ _ Erow)) as (vs & _ & HF2). destruct (F2_in _ _ _ _ HF2 Hx) as (w & _ & Ew). rewrite ET. apply nth_error_Some. congruence.
        - intros Hp. apply (HPD Hp). eapply nth_error_In; exact Erow. }
      rewrite (bprod_split (length p) ar) by (try exact Lar; intros c Hc; rewrite MK by lia; now rewrite (proj2 (Nat.ltb_ge _ _)) by lia).
      apply bprod_ext. intros c Hc. rewrite MK by lia. rewrite (proj2 (Nat.ltb_lt _ _)) by exact Hc. apply bsum_ext. intros a Ha. rewrite EQ by exact Ha. now rewrite HV.
Qed.
End Height.
