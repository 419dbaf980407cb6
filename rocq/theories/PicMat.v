(** Materialisation of one unit, and of a whole PIC without the group machinery. *)
From Coq Require Import List Arith Bool Reals Lia Lra.
From Verif Require Import Base ScopeModel CircuitModel LayerModel LayerProofs WsModel WsSpec WsProofs StackProofs PicModel PicSpec PicGrid.
Import ListNotations.
Local Open Scope R_scope.

Lemma mapR_ok {A B} (g : A -> result B) l l' : Forall2 (fun a b => g a = Ok b) l l' -> mapR g l = Ok l'.
Proof. induction 1 as [|a b l l' H _ IH]; [reflexivity|]. cbn. rewrite H. cbn [bind]. fold (@mapR A B g). rewrite IH. reflexivity. Qed.
Lemma mapR_inv {A B} (g : A -> result B) l l' : mapR g l = Ok l' -> Forall2 (fun a b => g a = Ok b) l l'.
Proof.
  revert l'. induction l as [|a l IH]; intros l' H; [cbn in H; injection H as <-; constructor|]. cbn in H. fold (@mapR A B g) in H.
  destruct (g a) as [b|] eqn:E; [|discriminate]. cbn [bind] in H. destruct (mapR g l) as [bs|] eqn:EL; [|discriminate]. injection H as <-. constructor; auto.
Qed.

Lemma divmod_block a b k : (b < k)%nat -> ((a * k + b) / k = a /\ (a * k + b) mod k = b)%nat.
Proof. intros H. split; [rewrite Nat.div_add_l by lia; rewrite Nat.div_small by exact H; lia|rewrite Nat.add_comm, Nat.mod_add by lia; now apply Nat.mod_small]. Qed.

Lemma app_inj_length {A} (a b c d : list A) : length a = length c -> a ++ b = c ++ d -> a = c /\ b = d.
Proof. revert c. induction a as [|x a IH]; intros [|y c] L E; cbn in L; try discriminate; [now split|]. cbn in E. injection E as -> E. injection L as L. destruct (IH c L E) as [-> ->]. now split. Qed.

(** ** The layers on one feature and one repetition *)
Lemma mk_wsum_ok c n w : q_shape c = mkShape 1 n 1 -> wF w = 1%nat -> wI w = n -> wR w = 1%nat ->
  (forall i o, (i < n)%nat -> (o < wO w)%nat -> 0 <= wv w 0 i o 0) ->
  exists m, mk_wsum c w = Ok m /\ q_scope m = q_scope c /\ q_shape m = mkShape 1 (wO w) 1 /\
    forall x o, (o < wO w)%nat -> pr (q_ll m x 0 o 0) = bsum n (fun i => wv w 0 i o 0 * pr (q_ll c x 0 i 0)).
Proof.
  intros HS HF HI HR HN. unfold mk_wsum. rewrite HS. cbn [features channels repetitions].
  assert (NN : weights_nonneg w = true).
  { apply weights_nonneg_spec. intros f i o r Hf Hi Ho Hr. rewrite HF in Hf. rewrite HR in Hr. replace f with 0%nat by lia. replace r with 0%nat by lia. apply HN; lia. }
  rewrite NN. cbn [negb]. unfold spread. rewrite (proj2 (Nat.ltb_ge 1 1)) by lia. rewrite Bool.andb_false_r. rewrite HF, HI, !Nat.eqb_refl. cbn [negb].
  eexists. split; [reflexivity|]. cbn [q_scope q_shape q_ll]. split; [reflexivity|]. split; [now rewrite HR|]. intros x o Ho. rewrite pr_lse. apply bsum_ext. intros i Hi. rewrite pr_ladd.
  unfold bidx. rewrite HR. cbn [Nat.eqb]. rewrite pr_lfrom by (now apply HN). ring.
Qed.

Lemma prod_scope_ok l r s : isdisjoint (q_scope l) (q_scope r) = true -> join (q_scope l) (q_scope r) = Ok s -> prod_scope l r = Ok s.
Proof. intros D J. unfold prod_scope, all_pairwise_disjoint. cbn [apd_loop]. rewrite D, J. cbn [bind negb join_all join_from]. now rewrite J. Qed.

Lemma mk_outer_ok l r s a b : isdisjoint (q_scope l) (q_scope r) = true -> join (q_scope l) (q_scope r) = Ok s ->
  q_shape l = mkShape 1 a 1 -> q_shape r = mkShape 1 b 1 ->
  exists m, mk_outer l r = Ok m /\ q_scope m = s /\ q_shape m = mkShape 1 (a * b) 1 /\
    forall x i j, (j < b)%nat -> pr (q_ll m x 0 (i * b + j) 0) = pr (q_ll l x 0 i 0) * pr (q_ll r x 0 j 0).
Proof.
  intros D J HL HR. unfold mk_outer. rewrite (prod_scope_ok l r s D J). cbn [bind].
  assert (OC : outer_check [q_sc l; q_sc r] = true) by (unfold q_sc; rewrite HL, HR; reflexivity). rewrite OC. cbn [negb].
  eexists. split; [reflexivity|]. cbn [q_scope q_shape q_ll]. split; [reflexivity|]. split.
  - rewrite HL, HR. cbn [features channels repetitions]. unfold outer_channels. rewrite iproduct_length. cbn [nprod]. now rewrite Nat.mul_1_r.
  - intros x i j Hj. unfold outer_ll. cbn [map outer_vals fold_left]. unfold outer_step, q_tens, t_ch, t_ft. cbn [fst snd t_sh t_ll]. rewrite HL, HR. cbn [features channels].
    destruct (divmod_block i j b Hj) as [-> ->]. unfold bidx. cbn [Nat.eqb]. apply pr_ladd.
Qed.

Lemma mk_elementwise_ok l r s a : isdisjoint (q_scope l) (q_scope r) = true -> join (q_scope l) (q_scope r) = Ok s ->
  q_shape l = mkShape 1 a 1 -> q_shape r = mkShape 1 a 1 ->
  exists m, mk_elementwise l r = Ok m /\ q_scope m = s /\ q_shape m = mkShape 1 a 1 /\
    forall x i, (i < a)%nat -> pr (q_ll m x 0 i 0) = pr (q_ll l x 0 i 0) * pr (q_ll r x 0 i 0).
Proof.
  intros D J HL HR. unfold mk_elementwise. rewrite (prod_scope_ok l r s D J). cbn [bind]. rewrite HL, HR.
  set (ts := [_; _]). assert (EC : ew_channels ts = a) by (unfold ts, ew_channels, t_ch; cbn; rewrite Nat.max_0_r; apply Nat.max_id).
  assert (EA : ew_accepts ts = true) by (unfold ew_accepts; rewrite EC; unfold ts, t_ch; cbn [forallb t_sh channels]; now rewrite Nat.eqb_refl, Bool.orb_true_r).
  rewrite EA. cbn [negb]. assert (OC : ew_check [q_sc l; q_sc r] = true) by (unfold q_sc, ew_check; rewrite HL, HR; cbn [features channels forallb hd fst snd]; now rewrite !Nat.eqb_refl). rewrite OC. cbn [negb].
  eexists. split; [reflexivity|]. cbn [q_scope q_shape q_ll]. split; [reflexivity|]. split; [now rewrite EC|]. intros x i Hi.
  unfold ew_ll. rewrite pr_ladds. cbn [length bprod nth]. unfold q_tens, t_ch. cbn [t_sh t_ll]. rewrite HL, HR. cbn [channels].
  assert (B : bidx a i = i) by (unfold bidx; destruct (Nat.eqb_spec a 1); [lia|reflexivity]). rewrite B. ring.
Qed.

Lemma mat_int_ok q zd yd f c n : length (wts q) = length (pts q) -> (forall w, In w (wts q) -> 0 <= w) -> (forall a b, 0 <= f a b) ->
  q_shape c = mkShape 1 n 1 -> n = (length (pts q) ^ yd)%nat ->
  exists m, mat_int q zd yd f c = Ok m /\ q_scope m = q_scope c /\ q_shape m = mkShape 1 (length (pts q) ^ zd) 1 /\
    forall x o, (o < length (pts q) ^ zd)%nat -> pr (q_ll m x 0 o 0) =
      bsum n (fun i => f (nth o (grid q zd) []) (nth i (grid q yd) []) * nth i (kron_weights q yd) 0 * pr (q_ll c x 0 i 0)).
Proof.
  intros LW NN FN HS HN. unfold mat_int. rewrite HS. cbn [channels features]. rewrite HN, Nat.eqb_refl. cbn [negb].
  destruct (mk_wsum_ok c n (mkW 1 (length (pts q) ^ yd) (length (pts q) ^ zd) 1 (fun _ i o _ => int_weights q zd yd f i o)) HS eq_refl (eq_sym HN) eq_refl) as (m & E & S1 & S2 & V).
  { intros i o _ _. cbn [wv]. unfold int_weights. apply Rmult_le_pos; [apply FN|now apply kron_nonneg]. }
  cbn [wO wv] in V, S2. exists m. split; [exact E|]. split; [exact S1|]. split; [exact S2|]. intros x o Ho. rewrite V by exact Ho. rewrite HN. reflexivity.
Qed.

Lemma catpick2 (vs : list (shape * (nat -> nat -> nat -> lval))) oc f r d : Forall (fun v => channels (fst v) = oc) vs -> forall i c, (i < length vs)%nat -> (c < oc)%nat ->
  catpick true vs f (i * oc + c) r = snd (nth i vs d) f c r.
Proof.
  intros H. induction H as [|[sh g] vs E _ IH]; intros i c Hi Hc; [cbn in Hi; lia|]. cbn [catpick fst] in *. rewrite E. destruct i as [|i].
  - cbn [Nat.mul Nat.add]. rewrite (proj2 (Nat.ltb_lt c oc) Hc). reflexivity.
  - rewrite (proj2 (Nat.ltb_ge _ _)) by nia. replace (S i * oc + c - oc)%nat with (i * oc + c)%nat by nia. cbn [nth]. apply IH; [cbn in Hi; lia|exact Hc].
Qed.

Lemma mat_sum_ok ws ms oc d : ms <> [] -> Forall (fun m => q_shape m = mkShape 1 oc 1) ms -> all_equal (map q_scope ms) = true ->
  (forall w, In w ws -> 0 <= w) ->
  exists m, mat_sum ws ms = Ok m /\ q_scope m = q_scope (hd d ms) /\ q_shape m = mkShape 1 oc 1 /\
    forall x o, (o < oc)%nat -> pr (q_ll m x 0 o 0) = bsum (length ms) (fun i => nth i ws 0 * pr (q_ll (nth i ms d) x 0 o 0)).
Proof.
  intros NE HS AE NN. destruct ms as [|m0 ms]; [congruence|]. pose proof (Forall_inv HS) as H0. unfold mat_sum. rewrite H0. cbn [channels].
  assert (EX : existsb (fun m => negb (Nat.eqb (channels (q_shape m)) oc)) ms = false).
  { apply Bool.not_true_is_false. intros E. apply existsb_exists in E. destruct E as (m & Hm & E). apply Forall_inv_tail in HS. rewrite Forall_forall in HS. rewrite (HS m Hm) in E. cbn in E. now rewrite Nat.eqb_refl in E. }
  rewrite EX. set (all := m0 :: ms) in *. unfold mk_cat2. cbn [all]. fold all. rewrite H0. cbn [features repetitions].
  assert (FE : forallb (fun m => Nat.eqb (features (q_shape m)) 1) all = true).
  { apply forallb_forall. intros m Hm. rewrite Forall_forall in HS. now rewrite (HS m Hm). }
  rewrite FE, AE. cbn [negb bind].
  assert (SUM : list_sum (map (fun m => channels (q_shape m)) all) = (length all * oc)%nat).
  { clear -HS. induction HS as [|m l E _ IH]; [reflexivity|]. cbn [map length]. rewrite (eq_refl : list_sum (_ :: _) = (_ + list_sum _)%nat), IH, E. cbn [channels]. lia. }
  rewrite SUM. set (cat := mkQ _ _ _). assert (CS : q_shape cat = mkShape 1 (length all * oc) 1) by reflexivity.
  destruct (mk_wsum_ok cat (length all * oc) (mkW 1 (length all * oc) oc 1 (fun _ i o _ => sum_weights ws (length all) oc i o)) CS eq_refl eq_refl eq_refl) as (m & E & S1 & S2 & V).
  { intros i o _ _. cbn [wv]. unfold sum_weights. destruct (Nat.eqb _ _); [|lra]. destruct (nth_in_or_default (i / oc) ws 0) as [Hin| ->]; [now apply NN|lra]. }
  cbn [wO wv] in *. exists m. split; [exact E|]. split; [exact S1|]. split; [exact S2|]. intros x o Ho. rewrite V by exact Ho. rewrite bsum_flat. apply bsum_ext. intros i Hi.
  rewrite (bsum_single oc _ o); [|exact Ho|].
  - unfold sum_weights. destruct (divmod_block i o oc Ho) as [-> ->]. rewrite Nat.eqb_refl. f_equal. f_equal. unfold cat. cbn [q_ll].
    rewrite (catpick2 _ oc 0 0 (mkShape 0 0 0, fun _ _ _ => NInf)); [|apply Forall_forall; intros v Hv; apply in_map_iff in Hv; destruct Hv as (m' & <- & Hm'); rewrite Forall_forall in HS; cbn [fst]; now rewrite (HS m' Hm')|now rewrite map_length|exact Ho].
    rewrite (nth_indep _ _ ((fun m => (q_shape m, q_ll m x)) d)) by (now rewrite map_length). rewrite (map_nth (fun m => (q_shape m, q_ll m x))). reflexivity.
  - intros j Hj Hne. unfold sum_weights. destruct (divmod_block i j oc Hj) as [-> ->]. destruct (Nat.eqb_spec j o); [congruence|ring].
Qed.

(** ** The whole circuit *)
Section Mat.
Variable gf : nat -> nat -> list R -> list R -> R.
Variable q : rule.
Fixpoint mat (p : pic) : result qmod :=
  match p with
  | PLeaf u => i_mat u q
  | PSum ws _ cs => bind (mapR mat cs) (mat_sum ws)
  | PProd _ _ l r =>
      bind (mat l) (fun ml => bind (mat r) (fun mr =>
        if scope_eqb (latent l) (latent r) then mk_elementwise ml mr else mk_outer ml mr))
  | PInt zs ys w c =>
      match w with NoFn => Err | _ => bind (mat c) (mat_int q (length (query zs)) (length (query ys)) (fn_of gf w)) end
  end.
End Mat.

Lemma pic_ind' (P : pic -> Prop) : (forall u, P (PLeaf u)) -> (forall zs ys w c, P c -> P (PInt zs ys w c)) ->
  (forall s zs l r, P l -> P r -> P (PProd s zs l r)) -> (forall ws zs cs, Forall P cs -> P (PSum ws zs cs)) -> forall p, P p.
Proof.
  intros H1 H2 H3 H4. fix IH 1. intros [u|zs ys w c|s zs l r|ws zs cs]; [apply H1|apply H2, IH|apply H3; apply IH|].
  apply H4. induction cs as [|c cs IHc]; constructor; [apply IH|exact IHc].
Qed.

Definition all_sound gf g q ord := fix all (l : list pic) : Prop := match l with [] => True | c :: r => (sound gf g q c /\ order c = ord) /\ all r end.
Lemma all_sound_spec gf g q ord l : all_sound gf g q ord l <-> Forall (fun c => sound gf g q c /\ order c = ord) l.
Proof. induction l as [|c l IH]; cbn; split; intros H; [constructor|exact Logic.I|constructor; tauto|inversion H; tauto]. Qed.
Lemma den_sum cols gf g q x ws zs cs e d : length ws = length cs ->
  den cols gf g q x (PSum ws zs cs) e = bsum (length cs) (fun i => nth i ws 0 * den cols gf g q x (nth i cs d) e).
Proof.
  cbn [den]. revert ws. induction cs as [|c cs IH]; intros [|w ws] L; cbn in L; try discriminate; [reflexivity|]. cbn [length]. rewrite bsum_S_first. cbn [nth]. f_equal. apply IH. lia.
Qed.
Lemma mk_prod_inv l r s zs : mk_prod l r = Ok (PProd s zs l r) -> isdisjoint (pic_scope l) (pic_scope r) = true /\ join (pic_scope l) (pic_scope r) = Ok s /\ join_all [latent l; latent r] = Ok zs.
Proof.
  unfold mk_prod. destruct (isdisjoint _ _); cbn [negb]; [|discriminate]. destruct (join _ _) as [s'|]; [|discriminate]. cbn [bind].
  destruct (join_all _) as [z'|]; [|discriminate]. cbn [bind]. intros H. injection H as <- <-. now repeat split.
Qed.
Lemma mk_sum_inv cs ws zs p : mk_sum cs ws zs = Ok p -> p = PSum ws zs cs /\ cs <> [] /\ length ws = length cs /\ (forall w, In w ws -> 0 < w) /\
  Rabs (lsumR ws - 1) <= / 10 ^ 8 + / 10 ^ 5 /\ all_equal (map pic_scope cs) = true.
Proof.
  unfold mk_sum. destruct cs as [|c cs]; [discriminate|]. destruct (Nat.eqb_spec (length ws) (length (c :: cs))) as [L|]; cbn [negb]; [|discriminate].
  destruct (forallb _ ws) eqn:E; cbn [negb]; [|discriminate]. destruct (rle _ _) eqn:ER; cbn [negb]; [|discriminate]. destruct (all_equal _) eqn:EA; cbn [negb]; [|discriminate]. intros H. injection H as <-.
  split; [reflexivity|]. split; [discriminate|]. split; [exact L|]. split; [intros w Hw; rewrite forallb_forall in E; specialize (E w Hw); unfold rlt in E; destruct (Rlt_dec 0 w); [assumption|discriminate]|].
  split; [unfold rle in ER; destruct (Rle_dec _ _); [assumption|discriminate]|reflexivity].
Qed.

(** the value of the materialised circuit is the PIC's *)
Definition means gf g q (p : pic) (m : qmod) : Prop :=
  q_scope m = pic_scope p /\ q_shape m = mkShape 1 (length (pts q) ^ length (order p)) 1 /\
  forall x c e, (c < length (pts q) ^ length (order p))%nat -> map e (order p) = nth c (grid q (length (order p))) [] ->
    pr (q_ll m x 0 c 0) = den left_first gf g q x p e.

Lemma rule_ok_inv q : rule_ok q = true -> length (wts q) = length (pts q) /\ (forall w, In w (wts q) -> 0 <= w).
Proof.
  unfold rule_ok. intros H. apply andb_prop in H. destruct H as [H1 H2]. apply Nat.eqb_eq in H1. split; [now symmetry|].
  intros w Hw. rewrite forallb_forall in H2. specialize (H2 w Hw). unfold rle in H2. destruct (Rle_dec 0 w); [assumption|discriminate].
Qed.

Lemma mat_means gf g q p : rule_ok q = true -> sound gf g q p -> exists m, mat gf q p = Ok m /\ means gf g q p m.
Proof.
  intros RO. destruct (rule_ok_inv q RO) as [LW NN]. induction p as [u|zs ys w c IH|s zs l r IHl IHr|ws zs cs IH] using pic_ind'; cbn [sound]; intros HS.
  - destruct HS as (m & E & S1 & S2 & V). exists m. split; [exact E|]. split; [exact S1|]. split; [exact S2|]. intros x c e Hc He. cbn [order den] in *. rewrite V by exact Hc. now rewrite <- He.
  - destruct HS as (Sc & NF & FN & ND & LY). destruct (IH Sc) as (mc & E & S1 & S2 & V).
    destruct (mat_int_ok q (length (query zs)) (length (query ys)) (fn_of gf w) mc _ LW NN FN S2 (f_equal _ (eq_sym LY))) as (m & Em & T1 & T2 & W).
    exists m. split; [cbn [mat]; destruct w; [congruence| |]; rewrite E; exact Em|]. split; [now rewrite T1, S1|]. split; [exact T2|].
    intros x o e Ho He. cbn [order] in *. rewrite W by exact Ho. cbn [den]. unfold left_first at 1 2. rewrite (quad_grid q LW). apply bsum_ext. intros i Hi.
    assert (ME : map (upds e (order c) (nth i (grid q (length (order c))) [])) (order c) = nth i (grid q (length (order c))) []) by (apply upds_map; [exact ND|now apply grid_row_length]).
    rewrite (V x i (upds e (order c) (nth i (grid q (length (order c))) [])) Hi ME), ME, He, LY. ring.
  - destruct HS as (Sl & Sr & MP & EO). destruct (mk_prod_inv _ _ _ _ MP) as (D & J & _). destruct (IHl Sl) as (ml & El & L1 & L2 & VL). destruct (IHr Sr) as (mr & Er & R1 & R2 & VR).
    cbn [mat]. rewrite El, Er. cbn [bind]. rewrite <- L1, <- R1 in D, J. unfold means. cbn [order pic_scope]. destruct (scope_eqb (latent l) (latent r)) eqn:EQ.
    + specialize (EO eq_refl). rewrite <- EO in R2, VR. destruct (mk_elementwise_ok ml mr s _ D J L2 R2) as (m & E & S1 & S2 & V). exists m. split; [exact E|]. split; [exact S1|]. split; [exact S2|].
      intros x c e Hc He. rewrite V by exact Hc. cbn [den]. rewrite (VL x c e Hc He), (VR x c e Hc He). reflexivity.
    + destruct (mk_outer_ok ml mr s _ _ D J L2 R2) as (m & E & S1 & S2 & V). exists m. split; [exact E|]. split; [exact S1|]. rewrite app_length, Nat.pow_add_r. split; [exact S2|].
      intros x c e Hc He. set (b := (length (pts q) ^ length (order r))%nat) in *. assert (P : b <> 0%nat) by (intros E0; rewrite E0 in Hc; lia).
      pose proof (Nat.mod_upper_bound c b P) as HM. assert (HD : (c / b < length (pts q) ^ length (order l))%nat) by (apply Nat.div_lt_upper_bound; [exact P|lia]).
      rewrite (Nat.div_mod c b) in He |- * by exact P. rewrite (Nat.mul_comm b) in He |- *. rewrite V by exact HM. unfold b in He at 2. rewrite grid_app in He by assumption. rewrite map_app in He.
      apply app_inj_length in He; [|now rewrite map_length, grid_row_length]. destruct He as [H1 H2]. cbn [den]. now rewrite (VL x _ e HD H1), (VR x _ e HM H2).
  - destruct HS as (MS & AS). destruct (mk_sum_inv _ _ _ _ MS) as (_ & NE & LWS & PW & _ & AE). fold (all_sound gf g q (order (PSum ws zs cs))) in AS. apply all_sound_spec in AS.
    assert (HM : exists ms, Forall2 (fun c m => mat gf q c = Ok m) cs ms /\ Forall2 (fun c m => means gf g q c m) cs ms).
    { clear MS NE LWS AE. revert IH AS. generalize (order (PSum ws zs cs)). intros ord IH AS. induction AS as [|c cs [Sc _] _ IHs]; [exists []; split; constructor|]. inversion IH as [|? ? Hc Hcs]; subst. destruct (Hc Sc) as (m & E & M). destruct (IHs Hcs) as (ms & F1 & F2). exists (m :: ms). split; constructor; assumption. }
    destruct HM as (ms & F1 & F2). set (d := mkQ empty_scope (mkShape 0 0 0) (fun _ _ _ _ => NInf)). set (K := length (pts q)) in *. set (ord := order (PSum ws zs cs)) in *.
    assert (LEN : length ms = length cs) by (clear -F1; induction F1; [reflexivity|cbn; lia]).
    assert (SH : Forall (fun m => q_shape m = mkShape 1 (K ^ length ord) 1) ms).
    { clearbody ord. clear -F2 AS. induction F2 as [|c m cs' ms' M _ IHf]; constructor.
      - destruct M as (_ & M & _). destruct (Forall_inv AS) as [_ EO]. rewrite M, EO. reflexivity.
      - apply IHf. now inversion AS. }
    assert (SC : map q_scope ms = map pic_scope cs) by (clear -F2; induction F2 as [|c m cs' ms' (M & _) _ IHf]; [reflexivity|cbn; now rewrite M, IHf]).
    destruct (mat_sum_ok ws ms (K ^ length ord) d) as (m & E & S1 & S2 & V); [intros ->; destruct cs; [congruence|discriminate]|exact SH|now rewrite SC|intros w Hw; left; now apply PW|].
    exists m. split; [cbn [mat]; rewrite (mapR_ok _ _ _ F1); exact E|]. split; [rewrite S1; destruct cs as [|c0 cs]; [congruence|]; inversion F2 as [|? ? ? ? (M & _)]; subst; exact M|]. split; [exact S2|].
    intros x c e Hc He. rewrite V by exact Hc. rewrite (den_sum _ _ _ _ _ _ _ _ _ (PLeaf (mkIn empty_scope empty_scope (fun _ => Err)))) by exact LWS. rewrite LEN. apply bsum_ext. intros i Hi. f_equal.
    assert (MI : means gf g q (nth i cs (PLeaf (mkIn empty_scope empty_scope (fun _ => Err)))) (nth i ms d) /\ order (nth i cs (PLeaf (mkIn empty_scope empty_scope (fun _ => Err)))) = ord).
    { split; [|rewrite Forall_forall in AS; apply AS; apply nth_In; exact Hi].
      clear -F2 Hi. revert i Hi. induction F2 as [|c m cs' ms' M _ IHf]; intros i Hi; [cbn in Hi; lia|]. destruct i as [|i]; [exact M|cbn [nth]; apply IHf; cbn in Hi; lia]. }
    destruct MI as [(_ & _ & MV) EO]. rewrite EO in MV. now apply MV.
Qed.
