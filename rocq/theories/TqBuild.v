(** All heights of a TensorizedQPC (proofs). *)
From Coq Require Import List Arith Bool Reals ZArith Lia Lra Sorted.
From Verif Require Import Base ScopeModel ScopeProofs RegionModel RegionSpec RegionProofs CircuitModel LayerModel PicModel PicSpec PicVisit PicMat PicShare TqModel TqSpec TqParam TqLevel TqVal TqStep.
Import ListNotations.

Lemma distinct_same l a b : distinct l -> In a l -> In b l -> same a b = true -> a = b.
Proof.
  induction l as [|t l IH]; intros D Ha Hb E; [destruct Ha|]. apply distinct_cons in D. destruct D as [N D]. destruct Ha as [<-|Ha], Hb as [<-|Hb].
  - reflexivity.
  - rewrite (N b Hb) in E. discriminate.
  - rewrite same_sym, (N a Ha) in E. discriminate.
  - now apply IH.
Qed.
Lemma softmax_masked m ar n lg f c k : n <= ar -> (forall j, j < ar -> masked m f j = Nat.ltb j n) -> c < n ->
  masked_softmax m ar lg f c k = (exp (lg f c k) / bsum n (fun j => exp (lg f j k)))%R.
Proof.
  intros Hn HM Hc. unfold masked_softmax. rewrite HM by lia. rewrite (proj2 (Nat.ltb_lt _ _)) by exact Hc. f_equal.
  rewrite (bsum_split n ar) by (try exact Hn; intros j Hj; rewrite HM by lia; now rewrite (proj2 (Nat.ltb_ge _ _)) by lia).
  apply bsum_ext. intros j Hj. rewrite HM by lia. now rewrite (proj2 (Nat.ltb_lt _ _)) by exact Hj.
Qed.
Lemma softmax_nonneg m ar lg f c k : c < ar -> (0 <= masked_softmax m ar lg f c k)%R.
Proof.
  intros Hc. unfold masked_softmax. destruct (masked m f c) eqn:E; [|unfold Rdiv; rewrite Rmult_0_l; lra].
  apply Rmult_le_pos; [apply Rlt_le, exp_pos|]. apply Rlt_le, Rinv_0_lt_compat. apply (bsum_pos_in _ _ c); [|exact Hc|rewrite E; apply exp_pos].
  intros j _. destruct (masked m f j); [apply Rlt_le, exp_pos|lra].
Qed.
Lemma F2_seq {A} (l : list A) d n : forall s, s + n <= length l -> Forall2 (fun i v => nth_error l i = Some v) (seq s n) (map (fun j => nth j l d) (seq s n)).
Proof.
  induction n as [|n IH]; intros s H; cbn [seq map]; constructor; [|apply IH; lia]. apply nth_error_nth'. lia.
Qed.

Lemma before_self r : before r [r] = [].
Proof. cbn [before]. pose proof (same_refl r) as H. destruct (same r r); [reflexivity|discriminate]. Qed.
Lemma slot_self r : slot r [r] = 0.
Proof. unfold slot. now rewrite before_self. Qed.
Section Height.
Variable root : region.
Variable cls : layer_cls.
Variable q : rule.
Variable eps : R.
Variable n_chunks : nat.
Variable L : nat -> nat -> list R -> R.
Variable mlog : nat -> nat -> nat -> nat -> R.
Variable leaf : scope -> nat -> R.
Hypothesis SO : forall r, reach root r -> sorted_scope (r_scope r).
Hypothesis RG : rg_ok root.
Hypothesis HN : (1 <= n_chunks).
Hypothesis HW : length (wts q) = length (pts q).
Hypothesis W0 : forall w, In w (wts q) -> (0 <= w)%R.
Hypothesis W1 : exists w, In w (wts q) /\ (0 < w)%R.
Hypothesis EP : (0 < eps)%R.
Hypothesis L0 : forall i f zs, (0 <= L i f zs)%R.
Notation K := (length (pts q)).
Notation W := (qpc_weights q eps L mlog root).
Notation tv := (tval root cls K W leaf).
Notation out_of := (out_of root q).
Notation Sim := (Sim root cls q eps L mlog leaf).
Notation lev h := (level root h).

Lemma entries_1 h o1 fl r : In r (post_order root) ->
  let E := map (fun irp : nat * (region * list region) => (fst (snd irp), (fst irp, o1))) (filter (fun irp => Nat.eqb (length (r_children (fst (snd irp)))) 1) (index_from 0 (LP (lev h)))) in
  find_fold r (rev E ++ fl) = if (Nat.eqb (rdepth r) h && Nat.eqb (length (r_children r)) 1)%bool then Ok (slot r (lev h), o1) else find_fold r fl.
Proof.
  intros Hr E. assert (HE : forall e, In e (rev E) -> exists x, In x (lev h) /\ fst e = x /\ length (r_children x) = 1 /\ snd e = (slot x (lev h), o1)).
  { intros e He. apply in_rev in He. apply in_map_iff in He. destruct He as ([i [x p]] & <- & Hf). apply filter_In in Hf. destruct Hf as [Hin HL]. cbn [fst snd] in *. apply Nat.eqb_eq in HL. apply index_from_In in Hin. destruct Hin as [_ Hn]. rewrite Nat.sub_0_r in Hn.
    destruct (LP_inv _ (level_distinct root h) _ _ _ Hn) as (Hx & j & Ej & Ep). exists x. split; [exact Hx|]. split; [reflexivity|]. split; [exact HL|]. f_equal. assert (j < length (r_children x)) by (apply nth_error_Some; congruence). lia. }
  assert (HX : forall x, In x (lev h) -> same r x = true -> r = x) by (intros x Hx Hs; apply level_In in Hx; destruct Hx as [Hx _]; apply (distinct_same (post_order root)); auto; apply po_distinct).
  destruct (Nat.eqb_spec (rdepth r) h) as [Hd|Hd]; cbn [andb].
  - destruct (Nat.eqb_spec (length (r_children r)) 1) as [HL|HL].
    + apply find_fold_in.
      * assert (Hl : In r (lev h)) by (apply level_In; now split). destruct (nth_error (r_children r) 0) as [p|] eqn:Ep; [|apply nth_error_None in Ep; lia].
        pose proof (LP_nth _ (level_distinct root h) r 0 p Hl Ep) as Hn. exists (r, (slot r (lev h) + 0, o1)). split; [|apply same_refl]. apply in_rev. rewrite rev_involutive. apply in_map_iff. exists (slot r (lev h) + 0, (r, p)). split; [reflexivity|].
        apply filter_In. split; [apply index_from_In; split; [lia|now rewrite Nat.sub_0_r]|]. cbn [fst snd]. now apply Nat.eqb_eq.
      * intros e He Hs. destruct (HE e He) as (x & Hx & Ex & _ & Es). rewrite Ex in Hs. rewrite (HX x Hx Hs). exact Es.
    + apply find_fold_out. intros e He. destruct (same r (fst e)) eqn:Hs; [|reflexivity]. destruct (HE e He) as (x & Hx & Ex & HL' & _). rewrite Ex in Hs. rewrite (HX x Hx Hs) in HL. contradiction.
  - apply find_fold_out. intros e He. destruct (same r (fst e)) eqn:Hs; [|reflexivity]. destruct (HE e He) as (x & Hx & Ex & _). rewrite Ex in Hs. apply same_rdepth in Hs. apply level_In in Hx. destruct Hx as [_ Hx]. congruence.
Qed.
Lemma entries_2 h o2 fl r : In r (post_order root) ->
  let E := map (fun ir : nat * region => (snd ir, (fst ir, o2))) (index_from 0 (filter several (lev h))) in
  find_fold r (rev E ++ fl) = if (Nat.eqb (rdepth r) h && several r)%bool then Ok (length (filter several (before r (lev h))), o2) else find_fold r fl.
Proof.
  intros Hr E. assert (HE : forall e, In e (rev E) -> exists x, In x (lev h) /\ fst e = x /\ several x = true /\ snd e = (length (filter several (before x (lev h))), o2)).
  { intros e He. apply in_rev in He. apply in_map_iff in He. destruct He as ([i x] & <- & Hin). cbn [fst snd] in *. apply index_from_In in Hin. destruct Hin as [_ Hn]. rewrite Nat.sub_0_r in Hn.
    destruct (filter_inv several _ (level_distinct root h) _ _ Hn) as (Hx & Hsv & Ei). exists x. split; [exact Hx|]. split; [reflexivity|]. split; [exact Hsv|]. now rewrite Ei. }
  assert (HX : forall x, In x (lev h) -> same r x = true -> r = x) by (intros x Hx Hs; apply level_In in Hx; destruct Hx as [Hx _]; apply (distinct_same (post_order root)); auto; apply po_distinct).
  destruct (Nat.eqb_spec (rdepth r) h) as [Hd|Hd]; cbn [andb].
  - destruct (several r) eqn:HL.
    + apply find_fold_in.
      * assert (Hl : In r (lev h)) by (apply level_In; now split). pose proof (filter_nth several _ (level_distinct root h) r Hl HL) as Hn. exists (r, (length (filter several (before r (lev h))), o2)). split; [|apply same_refl]. apply in_rev. rewrite rev_involutive. apply in_map_iff. exists (length (filter several (before r (lev h))), r). split; [reflexivity|].
        apply index_from_In. split; [lia|now rewrite Nat.sub_0_r].
      * intros e He Hs. destruct (HE e He) as (x & Hx & Ex & _ & Es). rewrite Ex in Hs. rewrite (HX x Hx Hs). exact Es.
    + apply find_fold_out. intros e He. destruct (same r (fst e)) eqn:Hs; [|reflexivity]. destruct (HE e He) as (x & Hx & Ex & HL' & _). rewrite Ex in Hs. rewrite (HX x Hx Hs) in HL. congruence.
  - apply find_fold_out. intros e He. destruct (same r (fst e)) eqn:Hs; [|reflexivity]. destruct (HE e He) as (x & Hx & Ex & _). rewrite Ex in Hs. apply same_rdepth in Hs. apply level_In in Hx. destruct Hx as [_ Hx]. congruence.
Qed.

Notation pvals := (pvals root cls K W leaf).
Definition m_arity_of (nu : list region) := list_max (map (fun r => length (r_children r)) nu).
Definition m_pad_of (nu : list region) := existsb (fun r => Nat.ltb (length (r_children r)) (m_arity_of nu)) nu.
Definition s2_of (o1 nm out folds : nat) (nu : list region) (idxs : region -> list nat) : step :=
  let mrows := map (fun r => pad_row (m_arity_of nu) folds (idxs r)) nu in
  mkStep (m_pad_of nu) [o1] mrows (Mixing nm (mkMix (length nu) (m_arity_of nu) out (mask_of (m_pad_of nu) folds mrows))).
Definition parts_ok (h : nat) (pf : list fold) : Prop := length pf = length (LP (lev h)) /\
  forall i r p, nth_error (LP (lev h)) i = Some (r, p) -> exists v, nth_error pf i = Some v /\
    forall o, o < out_of h -> pr (v o) = part_value root cls K W h i (map tv p) o.

Lemma parts_nth h pf r j p : parts_ok h pf -> In r (lev h) -> nth_error (r_children r) j = Some p -> exists v, nth_error pf (slot r (lev h) + j) = Some v /\
  forall o, o < out_of h -> pr (v o) = nth j (pvals r) (fun _ => 0%R) o.
Proof.
  intros [_ HP] Hr Ej. destruct (HP _ _ _ (LP_nth _ (level_distinct root h) r j p Hr Ej)) as (v & Ev & HV). exists v. split; [exact Ev|]. intros o Ho. rewrite HV by exact Ho.
  rewrite (pvals_nth root cls K W leaf r j p Ej). pose proof Hr as Hr'. apply level_In in Hr'. destruct Hr' as [_ ->]. now rewrite (part_slot_eq root r r h Hr (same_refl r)).
Qed.

Lemma mix_step h outs pf nm : parts_ok h pf -> filter several (lev h) <> [] -> exists mf,
  let nu := filter several (lev h) in
  eval_step q eps n_chunks L mlog (outs ++ [(out_of h, pf)]) (s2_of (length outs) nm (out_of h) (length pf) nu (fun r => seq (slot r (lev h)) (length (r_children r)))) =
    Ok ((outs ++ [(out_of h, pf)]) ++ [(out_of h, mf)]) /\ length mf = length nu /\
  forall m r, nth_error nu m = Some r -> exists v, nth_error mf m = Some v /\
    forall k, k < out_of h -> pr (v k) = bsum (length (r_children r)) (fun j => (exp (mlog nm m j k) / bsum (length (r_children r)) (fun j' => exp (mlog nm m j' k)) * nth j (pvals r) (fun _ => 0) k)%R).
Proof.
  intros HP NE. set (nu := filter several (lev h)). set (ar := m_arity_of nu). set (pad := m_pad_of nu). set (idxs := fun r => seq (slot r (lev h)) (length (r_children r))).
  set (rows0 := map idxs nu). set (vss := map (fun r => map (fun j => nth j pf (fun _ => NInf)) (idxs r)) nu).
  assert (NU : forall r, In r nu -> In r (lev h)) by (intros r Hr; apply filter_In in Hr; tauto).
  assert (SL : forall r, In r (lev h) -> slot r (lev h) + length (r_children r) <= length pf).
  { intros r Hr. destruct (length (r_children r)) as [|n] eqn:En; [|].
    - destruct (Nat.le_gt_cases (slot r (lev h) + 0) (length pf)) as [H|H]; [exact H|]. exfalso. destruct HP as [HL _]. rewrite HL in H.
      assert (X : slot r (lev h) <= length (LP (lev h))); [|lia]. clear. unfold slot, LP. induction (lev h) as [|t l IH]; [cbn; lia|]. cbn [before flat_map]. rewrite app_length, map_length. destruct (same r t); [cbn; lia|]. cbn [map list_sum fold_right]. unfold list_sum in IH. lia.
    - destruct (nth_error (r_children r) n) as [p|] eqn:Ep; [|apply nth_error_None in Ep; lia]. destruct (parts_nth h pf r n p HP Hr Ep) as (v & Ev & _). assert (slot r (lev h) + n < length pf) by (apply nth_error_Some; congruence). lia. }
  assert (HR : Forall2 (Forall2 (fun i v => nth_error pf i = Some v)) rows0 vss).
  { apply F2_same. intros r Hr. apply F2_seq. apply SL, NU, Hr. }
  assert (AG : forall r, In r nu -> length (r_children r) <= ar) by (intros r Hr; apply list_max_In; apply (in_map (fun r => length (r_children r)) nu r Hr)).
  assert (PF : pad = false -> forall r, In r nu -> length (r_children r) = ar).
  { intros Hp r Hr. pose proof (AG r Hr). destruct (Nat.eq_dec (length (r_children r)) ar) as [E|N]; [exact E|]. exfalso. assert (pad = true); [|congruence]. apply existsb_exists. exists r. split; [exact Hr|]. apply Nat.ltb_lt. fold ar. lia. }
  assert (HPD : pad = false -> forall row, In row rows0 -> length row = ar).
  { intros Hp row Hrow. apply in_map_iff in Hrow. destruct Hrow as (r & <- & Hr). unfold idxs. rewrite seq_length. now apply PF. }
  pose proof (get_rows pf pad ar rows0 vss HR HPD) as HG. set (ins := map (pad_fold ar) vss) in *.
  set (lay := mkMix (length nu) ar (out_of h) (mask_of pad (length pf) (map (pad_row ar (length pf)) rows0))).
  set (mf := eval_mixing (masked_softmax (m_mask lay) (m_arity lay) (mlog nm)) (m_mask lay) ins).
  exists mf. cbv zeta. split; [|split].
  - unfold s2_of. fold ar pad. replace (map (fun r => pad_row ar (length pf) (idxs r)) nu) with (map (pad_row ar (length pf)) rows0) by (unfold rows0; rewrite map_map; reflexivity).
    fold lay. unfold eval_step. cbn [s_in s_pad s_idx s_op mapR].
    assert (EN : nth_error (outs ++ [(out_of h, pf)]) (length outs) = Some (out_of h, pf)) by (rewrite nth_error_app2 by lia; rewrite Nat.sub_diag; reflexivity).
    rewrite EN. cbn [bind forallb fst flat_map snd]. rewrite app_nil_r. rewrite Nat.eqb_refl. cbn [negb andb].
    match goal with |- bind ?X _ = _ => replace X with (@Ok (list (list fold)) ins) by (symmetry; exact HG) end. cbn [bind].
    change (m_units lay) with (out_of h). rewrite Nat.eqb_refl. cbn [negb]. reflexivity.
  - unfold mf, eval_mixing, ins, vss. now rewrite map_length, index_from_length, !map_length.
  - intros m r Em. assert (Hr : In r nu) by (eapply nth_error_In; exact Em). pose proof (NU r Hr) as Hl. pose proof (AG r Hr) as Har.
    assert (Eins : nth_error ins m = Some (pad_fold ar (map (fun j => nth j pf (fun _ => NInf)) (idxs r)))) by (unfold ins, vss; rewrite !nth_error_map, Em; reflexivity).
    destruct (eval_mixing_nth (masked_softmax (m_mask lay) (m_arity lay) (mlog nm)) (m_mask lay) ins m _ Eins) as (v & Ev & HE). exists v. split; [exact Ev|]. intros k Hk.
    assert (Lrow : length (pad_fold ar (map (fun j => nth j pf (fun _ => NInf)) (idxs r))) = ar) by (apply pad_fold_length; unfold idxs; now rewrite map_length, seq_length).
    rewrite HE by (intros c Hc; rewrite Lrow in Hc; now apply softmax_nonneg). rewrite Lrow.
    assert (Erow : nth_error rows0 m = Some (idxs r)) by (unfold rows0; rewrite nth_error_map, Em; reflexivity).
    assert (MK : forall c, c < ar -> masked (m_mask lay) m c = Nat.ltb c (length (r_children r))).
    { intros c Hc. change (m_mask lay) with (mask_of pad (length pf) (map (pad_row ar (length pf)) rows0)). rewrite (masked_row pad ar (length pf) rows0 m _ c Erow); [unfold idxs; now rewrite seq_length| |unfold idxs; now rewrite seq_length| |exact Hc].
      - intros x Hx. apply in_seq in Hx. pose proof (SL r Hl). lia.
      - intros Hp. apply (HPD Hp). eapply nth_error_In; exact Erow. }
    rewrite (bsum_split (length (r_children r)) ar) by (try exact Har; intros c Hc; rewrite MK by lia; rewrite (proj2 (Nat.ltb_ge _ _)) by lia; ring).
    apply bsum_ext. intros c Hc. rewrite MK by lia. rewrite (proj2 (Nat.ltb_lt _ _)) by exact Hc. rewrite (softmax_masked _ _ (length (r_children r))) by (try exact Har; try exact MK; exact Hc). f_equal.
    destruct (nth_error (r_children r) c) as [p|] eqn:Ep; [|apply nth_error_None in Ep; lia]. destruct (parts_nth h pf r c p HP Hl Ep) as (w & Ew & HV). rewrite <- HV by exact Hk. f_equal.
    rewrite pad_fold_nth by (unfold idxs; rewrite map_length, seq_length; exact Hc). 
    erewrite (nth_error_nth (map _ (idxs r)) c); [reflexivity|]. rewrite nth_error_map. unfold idxs. rewrite (nth_error_nth' _ 0) by (rewrite seq_length; exact Hc). rewrite seq_nth by exact Hc. cbn [option_map]. f_equal. now apply nth_error_nth.
Qed.

Definition idxs_of (lp : list (region * list region)) (r : region) : list nat := map fst (filter (fun irp : nat * (region * list region) => same r (fst (snd irp))) (index_from 0 lp)).
Definition E1_of (lp : list (region * list region)) (o1 : nat) := map (fun irp : nat * (region * list region) => (fst (snd irp), (fst irp, o1))) (filter (fun irp => Nat.eqb (length (r_children (fst (snd irp)))) 1) (index_from 0 lp)).
Definition E2_of (nu : list region) (o2 : nat) := map (fun ir : nat * region => (snd ir, (fst ir, o2))) (index_from 0 nu).
Definition height_result (lr : list region) (out : nat) (st : bstate) (found : list (list (nat * nat))) : result bstate :=
  let lp := LP lr in
  let s1 := s1_of out cls st lp found in
  let o1 := length (b_counts st) in
  let fold1 := rev (E1_of lp o1) ++ b_fold st in
  let nu := filter several lr in
  match nu with
  | [] => Ok (mkB fold1 (b_counts st ++ [length lp]) (b_steps st ++ [s1]) (S (b_np st)) (b_nm st))
  | _ => if existsb (fun r => negb (Nat.eqb (length (idxs_of lp r)) (length (r_children r)))) nu then Err
         else Ok (mkB (rev (E2_of nu (S o1)) ++ fold1) ((b_counts st ++ [length lp]) ++ [length nu]) (b_steps st ++ [s1; s2_of o1 (b_nm st) out (length lp) nu (idxs_of lp)]) (S (b_np st)) (S (b_nm st)))
  end.
Lemma build_height_eq h st found : lev h <> [] -> mapR (fun rp => mapR (fun c => find_fold c (b_fold st)) (snd rp)) (LP (lev h)) = Ok found ->
  build_height (post_order root) K 1 (rdepth root) cls h st = height_result (lev h) (out_of h) st found.
Proof.
  intros NE HM. unfold build_height. change (filter (fun r => Nat.eqb (rdepth r) h) (post_order root)) with (lev h). unfold TqStep.out_of. generalize (if Nat.ltb h (rdepth root) then K else 1) as out. intros out. set (lr := lev h) in *. clearbody lr.
  destruct lr as [|r0 lr]; [contradiction|]. change (flat_map (fun r => map (pair r) (r_children r)) (r0 :: lr)) with (LP (r0 :: lr)). cbv zeta. rewrite HM. cbn [bind]. rewrite fold_cons, fold_cons'. reflexivity.
Qed.

Lemma existsb_lev h : existsb several (lev h) = match filter several (lev h) with [] => false | _ => true end.
Proof. induction (lev h) as [|r l IH]; [reflexivity|]. cbn [existsb filter]. rewrite IH. destruct (several r); reflexivity. Qed.
Lemma last_snoc {A} (l : list A) x d : last (l ++ [x]) d = x.
Proof. apply last_last. Qed.

Definition Done (outs : list (nat * list fold)) : Prop := exists v, last outs (0, []) = (1, [v]) /\ pr (v 0) = tv root 0.

Lemma height_step h st outs : 1 <= h <= rdepth root -> Sim h st outs -> exists st' ss outs',
  build_height (post_order root) K 1 (rdepth root) cls h st = Ok st' /\ b_steps st' = b_steps st ++ ss /\
  eval_steps q eps n_chunks L mlog outs ss = Ok outs' /\ (h < rdepth root -> Sim (S h) st' outs') /\ (h = rdepth root -> Done outs').
Proof.
  intros Hh HS. destruct (part_step root cls q eps n_chunks L mlog leaf SO RG HN HW W0 W1 EP L0 h st outs Hh HS) as (found & pf & HF & HE1 & LPF & HV).
  assert (HP : parts_ok h pf) by (split; [exact LPF|exact HV]).
  assert (LN : lev h <> []) by (apply level_nonempty; [exact SO|lia|lia]).
  assert (NC : forall r, In r (lev h) -> r_children r <> []). { intros r Hr N. apply level_In in Hr. destruct Hr as [_ D]. destruct r as [s ps]. cbn [r_children] in N. subst ps. cbn in D. lia. }
  pose proof HS as HS0. destruct HS0 as [CT SU SNP NMH SVL]. assert (LO : length (b_counts st) = length outs) by (rewrite CT; apply map_length).
  rewrite (build_height_eq h st found LN HF). unfold height_result. cbv zeta. rewrite LO.
  set (s1 := s1_of (out_of h) cls st (LP (lev h)) found) in *. set (o1 := length outs) in *. set (fold1 := rev (E1_of (LP (lev h)) o1) ++ b_fold st).
  assert (F1 : forall r, In r (post_order root) -> find_fold r fold1 = if (Nat.eqb (rdepth r) h && Nat.eqb (length (r_children r)) 1)%bool then Ok (slot r (lev h), o1) else find_fold r (b_fold st)) by (intros r Hr; apply entries_1; exact Hr).
  assert (NPS : S (b_np st) = S h - 1) by (rewrite SNP; lia).
  assert (V1 : forall r, In r (lev h) -> length (r_children r) = 1 -> exists v, nth_error pf (slot r (lev h)) = Some v /\ forall k, k < out_of h -> pr (v k) = tv r k).
  { intros r Hr HL. destruct (nth_error (r_children r) 0) as [p|] eqn:Ep; [|apply nth_error_None in Ep; lia]. destruct (parts_nth h pf r 0 p HP Hr Ep) as (v & Ev & Hv). rewrite Nat.add_0_r in Ev. exists v. split; [exact Ev|]. intros k Hk.
    rewrite Hv by exact Hk. rewrite (tval_node root cls K W leaf r (NC r Hr)), region_value_spec by (apply NC, Hr). unfold several. rewrite HL. reflexivity. }
  assert (OLD : forall r more, In r (post_order root) -> rdepth r < h -> exists f l folds v, find_fold r (b_fold st) = Ok (f, l) /\
    nth_error (outs ++ more) l = Some (K, folds) /\ nth_error folds f = Some v /\ forall k, k < K -> pr (v k) = tv r k).
  { intros r more Hr Hd. destruct (SVL r Hr Hd) as (f & l & folds & v & A & B & C & D). exists f, l, folds, v. split; [exact A|]. split; [rewrite nth_error_app1 by (apply nth_error_Some; congruence); exact B|]. now split. }
  destruct (filter several (lev h)) as [|u us] eqn:EN.
  - assert (NS : forall r, In r (lev h) -> length (r_children r) = 1).
    { intros r Hr. assert (HF' : several r = false). { destruct (several r) eqn:E; [|reflexivity]. assert (X : In r (filter several (lev h))) by (apply filter_In; now split). rewrite EN in X. destruct X. }
      unfold several in HF'. apply Nat.ltb_ge in HF'. pose proof (NC r Hr). destruct (r_children r) as [|a [|b l]]; cbn in *; [contradiction|reflexivity|lia]. }
    eexists _, [s1], (outs ++ [(out_of h, pf)]). split; [reflexivity|]. split; [reflexivity|]. split; [cbn [eval_steps]; rewrite HE1; reflexivity|]. split.
    + intros Hlt. assert (EO : out_of h = K) by (unfold TqStep.out_of; now rewrite (proj2 (Nat.ltb_lt _ _)) by exact Hlt). rewrite EO in *. constructor; cbn [b_counts b_np b_nm b_fold].
      * rewrite CT, map_app. cbn [map snd]. now rewrite LPF.
      * intros o Ho. apply in_app_or in Ho. destruct Ho as [Ho|[<-|[]]]; [apply (SU o Ho)|reflexivity].
      * exact NPS.
      * rewrite (mix_height_S root h) by lia. rewrite existsb_lev, EN. lia.
      * intros r Hr Hd. rewrite (F1 r Hr). destruct (Nat.eqb_spec (rdepth r) h) as [Ed|Nd]; cbn [andb]; [|apply OLD; [exact Hr|lia]].
        assert (Hl : In r (lev h)) by (apply level_In; now split). rewrite (NS r Hl). cbn [Nat.eqb]. destruct (V1 r Hl (NS r Hl)) as (v & Ev & Hv).
        exists (slot r (lev h)), o1, pf, v. split; [reflexivity|]. split; [rewrite nth_error_app2 by (unfold o1; lia); unfold o1; rewrite Nat.sub_diag; reflexivity|]. now split.
    + intros ->. assert (EO : out_of (rdepth root) = 1) by (unfold TqStep.out_of; now rewrite Nat.ltb_irrefl). rewrite EO in *. rewrite (level_top root) in *.
      assert (Hl : In root [root]) by now left. destruct (V1 root Hl (NS root Hl)) as (v & Ev & Hv). exists v. rewrite last_snoc. split; [|apply Hv; lia]. f_equal.
      unfold LP in LPF. cbn [flat_map] in LPF. rewrite app_nil_r, map_length, (NS root Hl) in LPF. destruct pf as [|w [|w' pf]]; try discriminate. f_equal. rewrite slot_self in Ev. cbn [nth_error] in Ev. congruence.
  - assert (NE : filter several (lev h) <> []) by (rewrite EN; discriminate). destruct (mix_step h outs pf (b_nm st) HP NE) as (mf & HE2 & LMF & HM). rewrite <- EN. cbv zeta in HE2, LMF, HM. set (nu := filter several (lev h)) in *.
    assert (NU : forall r, In r nu -> In r (lev h)) by (intros r Hr; apply filter_In in Hr; tauto).
    assert (IX : forall r, In r nu -> idxs_of (LP (lev h)) r = seq (slot r (lev h)) (length (r_children r))) by (intros r Hr; unfold idxs_of; rewrite (LP_indices _ (level_distinct root h)) by (apply NU, Hr); reflexivity).
    assert (CK : existsb (fun r => negb (Nat.eqb (length (idxs_of (LP (lev h)) r)) (length (r_children r)))) nu = false).
    { destruct (existsb _ nu) eqn:E; [|reflexivity]. apply existsb_exists in E. destruct E as (r & Hr & HX). rewrite (IX r Hr), seq_length, Nat.eqb_refl in HX. discriminate. }
    rewrite CK. rewrite <- LPF. set (s2 := s2_of o1 (b_nm st) (out_of h) (length pf) nu (idxs_of (LP (lev h)))).
    assert (ES : s2 = s2_of o1 (b_nm st) (out_of h) (length pf) nu (fun r => seq (slot r (lev h)) (length (r_children r)))).
    { unfold s2, s2_of. assert (EM : map (fun r => pad_row (m_arity_of nu) (length pf) (idxs_of (LP (lev h)) r)) nu = map (fun r => pad_row (m_arity_of nu) (length pf) (seq (slot r (lev h)) (length (r_children r)))) nu) by (apply map_ext_in; intros r Hr; now rewrite (IX r Hr)). now rewrite EM. }
    fold o1 in HE2. rewrite <- ES in HE2. set (fold2 := rev (E2_of nu (S o1)) ++ fold1).
    assert (F2 : forall r, In r (post_order root) -> find_fold r fold2 = if (Nat.eqb (rdepth r) h && several r)%bool then Ok (length (filter several (before r (lev h))), S o1) else find_fold r fold1) by (intros r Hr; apply entries_2; exact Hr).
    assert (V2 : forall r, In r (lev h) -> several r = true -> exists v, nth_error mf (length (filter several (before r (lev h)))) = Some v /\ forall k, k < out_of h -> pr (v k) = tv r k).
    { intros r Hr HL. destruct (HM _ _ (filter_nth several _ (level_distinct root h) r Hr HL)) as (v & Ev & Hv). exists v. split; [exact Ev|]. intros k Hk. rewrite Hv by exact Hk.
      rewrite (tval_node root cls K W leaf r (NC r Hr)), region_value_spec by (apply NC, Hr). rewrite HL. rewrite (mix_slot_eq root r r h Hr (same_refl r)). pose proof Hr as Hr'. apply level_In in Hr'. destruct Hr' as [_ ->]. rewrite NMH. reflexivity. }
    eexists _, [s1; s2], ((outs ++ [(out_of h, pf)]) ++ [(out_of h, mf)]). split; [reflexivity|]. split; [reflexivity|]. split; [cbn [eval_steps]; rewrite HE1; cbn [bind]; rewrite HE2; reflexivity|]. split.
    + intros Hlt. assert (EO : out_of h = K) by (unfold TqStep.out_of; now rewrite (proj2 (Nat.ltb_lt _ _)) by exact Hlt). rewrite EO in *. constructor; cbn [b_counts b_np b_nm b_fold].
      * rewrite CT, !map_app. cbn [map snd]. now rewrite LMF.
      * intros o Ho. apply in_app_or in Ho. destruct Ho as [Ho|[<-|[]]]; [|reflexivity]. apply in_app_or in Ho. destruct Ho as [Ho|[<-|[]]]; [apply (SU o Ho)|reflexivity].
      * exact NPS.
      * rewrite (mix_height_S root h) by lia. rewrite existsb_lev. fold nu. rewrite EN, NMH. lia.
      * intros r Hr Hd. rewrite (F2 r Hr). rewrite <- app_assoc. destruct (Nat.eqb_spec (rdepth r) h) as [Ed|Nd]; cbn [andb].
        -- assert (Hl : In r (lev h)) by (apply level_In; now split). destruct (several r) eqn:SV.
           ++ destruct (V2 r Hl SV) as (v & Ev & Hv). eexists _, (S o1), mf, v. split; [reflexivity|]. split; [rewrite nth_error_app2 by (unfold o1; lia); unfold o1; replace (S (length outs) - length outs) with 1 by lia; reflexivity|]. now split.
           ++ assert (L1 : length (r_children r) = 1). { unfold several in SV. apply Nat.ltb_ge in SV. pose proof (NC r Hl). destruct (r_children r) as [|a [|b l]]; cbn in *; [contradiction|reflexivity|lia]. }
              rewrite (F1 r Hr), L1, Ed, Nat.eqb_refl. cbn [Nat.eqb andb]. destruct (V1 r Hl L1) as (v & Ev & Hv). exists (slot r (lev h)), o1, pf, v. split; [reflexivity|]. split; [rewrite nth_error_app2 by (unfold o1; lia); unfold o1; rewrite Nat.sub_diag; reflexivity|]. now split.
        -- rewrite (F1 r Hr). rewrite (proj2 (Nat.eqb_neq _ _)) by exact Nd. cbn [andb]. apply OLD; [exact Hr|lia].
    + intros Eh. assert (EO : out_of h = 1) by (unfold TqStep.out_of; rewrite Eh; now rewrite Nat.ltb_irrefl). rewrite EO in *.
      assert (ER : lev h = [root]) by (rewrite Eh; apply level_top). assert (Hl : In root (lev h)) by (rewrite ER; now left).
      assert (SV : several root = true). { destruct (several root) eqn:E; [reflexivity|]. exfalso. apply NE. unfold nu. rewrite ER. cbn [filter]. now rewrite E. }
      destruct (V2 root Hl SV) as (v & Ev & Hv). exists v. rewrite last_snoc. split; [|apply Hv; lia]. f_equal. unfold nu in LMF. rewrite ER in LMF, Ev. rewrite before_self in Ev. cbn [filter] in LMF, Ev. rewrite SV in LMF. cbn [length nth_error] in LMF, Ev.
      destruct mf as [|w [|w' mf]]; try discriminate. f_equal. congruence.
Qed.
End Height.
