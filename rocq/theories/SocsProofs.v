(** Structure-preserving transformations of components: build_socs copies and proposals. *)
From Coq Require Import List Arith ZArith Bool Reals Lia Lra Sorted.
From Verif Require Import Base ScopeModel ScopeProofs CircuitModel CircuitBasics CircuitEval CircuitSpec CircuitMarg CircuitProps MargProofs Integral
  LeafModel LeafSpec LeafProofs LeafTop SignedModel SignedSpec SignedProofs LipProofs IpProofs.
Import ListNotations.
Local Open Scope R_scope.

(** ** same structure *)
Record sim (m m' : module) : Prop := {
  sim_fts : fts m = fts m'; sim_shape : out_shape m = out_shape m'; sim_scope : scope_of m = scope_of m';
  sim_wf : wf m -> wf m'; sim_al : aligned m -> aligned m'; sim_un : forall Rr, uniform Rr m -> uniform Rr m' }.

Lemma sim_refl m : sim m m.
Proof. constructor; auto. Qed.
Lemma sim_sum c c' co rr lg lg' : sim c c' -> sim (MSum c co rr lg) (MSum c' co rr lg').
Proof.
  intros [A B C W L U]. constructor; cbn; auto.
  - now rewrite B.
  - intros [H1 H2]. split; auto.
  - intros Rr [H1 H2]. split; auto.
Qed.
Lemma sim_product c c' : sim c c' -> sim (MProduct c) (MProduct c').
Proof. intros [A B C W L U]. constructor; cbn; auto; [now rewrite A|now rewrite B]. Qed.

Lemma sim_map {B} (g : module -> B) l l' : (forall m m', sim m m' -> g m = g m') -> Forall2 sim l l' -> map g l = map g l'.
Proof. intros H F. induction F as [|m m' l l' E F IH]; [reflexivity|]. cbn. now rewrite IH, (H _ _ E). Qed.

Lemma Forall2_In_r {A B} (Q : A -> B -> Prop) l l' b : Forall2 Q l l' -> In b l' -> exists a, In a l /\ Q a b.
Proof.
  induction 1 as [|x y l l' H F IH]; intros Hb; [destruct Hb|].
  destruct Hb as [<-|Hb]; [exists x; split; [now left|assumption]|].
  destruct (IH Hb) as (a & Ha & Qa). exists a. split; [now right|assumption].
Qed.
Lemma Forall2_In_l {A B} (Q : A -> B -> Prop) l l' a : Forall2 Q l l' -> In a l -> exists b, In b l' /\ Q a b.
Proof.
  induction 1 as [|x y l l' H F IH]; intros Hb; [destruct Hb|].
  destruct Hb as [<-|Hb]; [exists y; split; [now left|assumption]|].
  destruct (IH Hb) as (b & Ha & Qa). exists b. split; [now right|assumption].
Qed.

Lemma sim_cat d2 sc l l' : Forall2 sim l l' -> sim (MCat d2 sc l) (MCat d2 sc l').
Proof.
  intros F.
  assert (map fts l = map fts l') as E1 by (apply sim_map; [intros m m' []; auto|assumption]).
  assert (map out_shape l = map out_shape l') as E2 by (apply sim_map; [intros m m' []; auto|assumption]).
  assert (map scope_of l = map scope_of l') as E3 by (apply sim_map; [intros m m' []; auto|assumption]).
  assert (forall d, l <> [] -> sim (hd d l) (hd d l')) as Eh.
  { intros d Hn. destruct F; [congruence|]. cbn. assumption. }
  assert (out_shape (MCat d2 sc l) = out_shape (MCat d2 sc l')) as ES.
  { cbn. rewrite E2. reflexivity. }
  constructor; auto.
  - cbn. now rewrite E1.
  - cbn. intros (Hn & Hg & H). split; [intros ->; inversion F; subst; congruence|]. split.
    + apply go_Forall. apply go_Forall in Hg. clear - F Hg. induction F as [|m m' l l' S F IH]; [constructor|].
      inversion Hg; subst. constructor; [now apply S|auto].
    + destruct d2.
      * destruct H as (H1 & H2 & H3). specialize (Eh (MCat true sc []) Hn). split; [|split].
        -- rewrite Forall_forall in H1 |- *. intros m' Hm'. destruct (Forall2_In_r _ _ _ _ F Hm') as (m & Hm & S).
           rewrite <- (sim_shape _ _ S), <- (sim_shape _ _ Eh). now apply H1.
        -- intros c c' Hc Hc'. destruct (Forall2_In_r _ _ _ _ F Hc) as (m & Hm & S). destruct (Forall2_In_r _ _ _ _ F Hc') as (m' & Hm' & S').
           rewrite <- (sim_scope _ _ S), <- (sim_scope _ _ S'). now apply H2.
        -- rewrite H3 at 1. apply (sim_scope _ _ Eh).
      * destruct H as (H1 & H2 & (H3 & H4) & H5). specialize (Eh (MCat true sc []) Hn). split; [|split; [|split]].
        -- rewrite Forall_forall in H1 |- *. intros m' Hm'. destruct (Forall2_In_r _ _ _ _ F Hm') as (m & Hm & S).
           rewrite <- (sim_shape _ _ S), <- (sim_shape _ _ Eh). now apply H1.
        -- now rewrite <- E3.
        -- split; [assumption|]. intros v Hv. destruct (H4 v Hv) as (c & Hc & Hv'). destruct (Forall2_In_l _ _ _ _ F Hc) as (c' & Hc' & S).
           exists c'. split; [assumption|]. now rewrite <- (sim_scope _ _ S).
        -- intros v. rewrite H5. split; intros (c & Hc & Hv).
           ++ destruct (Forall2_In_l _ _ _ _ F Hc) as (c' & Hc' & S). exists c'. split; [assumption|]. now rewrite <- (sim_scope _ _ S).
           ++ destruct (Forall2_In_r _ _ _ _ F Hc) as (c' & Hc' & S). exists c'. split; [assumption|]. now rewrite (sim_scope _ _ S).
  - cbn. intros (Hg & H). split.
    + apply go_Forall. apply go_Forall in Hg. clear - F Hg. induction F as [|m m' l l' S F IH]; [constructor|].
      inversion Hg; subst. constructor; [now apply S|auto].
    + intros Hd. specialize (H Hd). rewrite <- E1. rewrite Forall_forall in H |- *. intros m' Hm'.
      destruct (Forall2_In_r _ _ _ _ F Hm') as (m & Hm & S). rewrite <- (sim_fts _ _ S). now apply H.
  - intros Rr. cbn. rewrite !go_Forall. intros Hg. clear - F Hg. induction F as [|m m' l l' S F IH]; [constructor|].
    inversion Hg; subst. constructor; [now apply S|auto].
Qed.

Lemma Forall2_map2 {A B} (Q : B -> B -> Prop) (g : A -> B) l l' : Forall2 (fun a b => Q (g a) (g b)) l l' -> Forall2 Q (map g l) (map g l').
Proof. induction 1; cbn; constructor; auto. Qed.

(** ** build_socs copies *)
Lemma copy_sim m : forall m', signed_copy m m' -> sim (skel m) (skel m').
Proof.
  induction m as [l|c co rr lg IH|c co rr w IH|d2 sc cs IH|c IH] using smod_ind'; intros m' H; inversion H; subst; cbn [skel].
  - apply sim_refl.
  - apply sim_sum. now apply IH.
  - apply sim_sum. now apply IH.
  - apply sim_cat. apply Forall2_map2. clear H. rename H4 into H. induction H as [|m m' l l' E F IHf]; constructor.
    + inversion IH; auto.
    + apply IHf. now inversion IH.
  - apply sim_product. now apply IH.
Qed.

Lemma copy_leaves m : forall m', signed_copy m m' -> sleaves m' = sleaves m.
Proof.
  induction m as [l|c co rr lg IH|c co rr w IH|d2 sc cs IH|c IH] using smod_ind'; intros m' H; inversion H; subst; cbn [sleaves]; auto.
  change (sleaves (SCat d2 sc cs') = sleaves (SCat d2 sc cs)). rewrite !sleaves_cat. f_equal. clear H. rename H4 into H.
  induction H as [|m m' l l' E F IHf]; [reflexivity|]. cbn. inversion IH; subst. rewrite IHf by assumption. f_equal. auto.
Qed.

(** ** monotone circuits as circuits of CircuitModel *)
Lemma pure_cat d2 sc cs : monotone (SCat d2 sc cs) <-> Forall monotone cs.
Proof. cbn. apply sgo_Forall. Qed.

Lemma bidx_in Rr r : (r < Rr)%nat -> bidx Rr r = r.
Proof. intros H. unfold bidx. destruct (Nat.eqb_spec Rr 1); lia. Qed.

Lemma prob_fun Rr m : wf (skel m) -> uniform Rr (skel m) -> monotone m -> forall x f c r, pos_ok Rr m f c r ->
  prob (skel m) x f c r = fun_of m x f c r.
Proof.
  induction m as [l|ch co rr lg IH|ch co rr w IH|d2 sc cs IH|ch IH] using smod_ind'; intros W U Pu x f c r P.
  - destruct l as [l|]; [|destruct Pu]. unfold prob, loglik. cbn [skel evalm fun_of]. unfold leaf_score, leaf_fun. cbn [l_scope l_lp sl_scope].
    destruct (x (nth f (query (fl_scope l)) 0%nat)); [reflexivity|apply pr_Fin0].
  - cbn in W, U, Pu. destruct W as [W _], U as [U ->].
    pose proof (wf_cpos _ (wf_wf1 _ W)) as Cp. cbn [skel]. rewrite prob_pev, pev_sum by assumption. cbn [fun_of].
    destruct P as [P1 P2 P3]. assert (ll_reps (skel ch) = Rr) as ER.
    { destruct (uniform_ll _ _ W U) as [A B]. destruct (ll_shape_spec _ _ W A) as (_ & _ & E). congruence. }
    rewrite ER, (bidx_in Rr r P3). apply bsum_ext. intros ci Hci. f_equal. rewrite <- prob_pev. apply IH; auto. constructor; auto.
  - destruct Pu.
  - pose proof (wf_scat _ _ _ W) as Wc. apply map_fix_uniform in U. apply pure_cat in Pu. rewrite Forall_forall in IH, Wc, U, Pu.
    destruct (cat_pos Rr d2 sc cs f c r W P) as (m & k & Hp & Hin & Wm & Pm).
    rewrite (fun_cat d2 sc cs x f c r m k Hp). rewrite prob_pev.
    apply pick_some in Hp. destruct Hp as (pre & post & E & Hk & Ei). subst cs. cbn [skel]. rewrite map_app. cbn [map].
    destruct d2.
    + rewrite Ei. replace (nsum (map (sdim true) pre)) with (nsum (map (fun c => channels (out_shape c)) (map skel pre))) by now rewrite map_map.
      rewrite pev_cat2 by exact Hk. rewrite <- prob_pev. apply IH; auto.
    + rewrite Ei. replace (nsum (map (sdim false) pre)) with (nsum (map (fun c => features (out_shape c)) (map skel pre))) by now rewrite map_map.
      rewrite pev_cat1 by exact Hk. rewrite <- prob_pev. apply IH; auto.
  - cbn in W, U, Pu. cbn [skel]. rewrite prob_pev, pev_product. cbn [fun_of]. apply bprod_ext. intros g Hg. rewrite <- prob_pev.
    destruct P as [P1 P2 P3]. apply IH; auto. constructor; auto.
Qed.

Lemma pure_leaves_norm D m : monotone m -> Forall (sleaf_fits D) (sleaves m) -> leaves_norm D (skel m).
Proof.
  unfold leaves_norm.
  induction m as [l|ch co rr lg IH|ch co rr w IH|d2 sc cs IH|ch IH] using smod_ind'; intros Pu F; cbn [skel leaves_of].
  - destruct l as [l|]; [|destruct Pu]. constructor; [|constructor]. inversion F as [|? ? F1 _]; subst. intros f c r Hf Hc Hr. cbn in *.
    destruct (F1 f c r Hf Hc Hr) as [A B]. destruct B as [-> |[B ->]]; [now apply fam_norm|now apply fam_norm_nat].
  - now apply IH.
  - destruct Pu.
  - change (Forall (leaf_norm D) (leaves_of (MCat d2 sc (map skel cs)))). rewrite leaves_cat. apply pure_cat in Pu. apply Forall_leaves_cat in F.
    induction cs as [|c cs IHc]; [constructor|]. cbn. inversion IH; inversion Pu; inversion F; subst. apply Forall_app. split; auto.
  - now apply IH.
Qed.

Lemma fun_normalised Rr D m : wf (skel m) -> aligned (skel m) -> uniform Rr (skel m) -> monotone m -> Forall (sleaf_fits D) (sleaves m) ->
  forall f c r, pos_ok Rr m f c r -> forall vars x, NoDup vars -> (forall v, In v vars <-> In v (nthq (skel m) f)) ->
  sums_over D vars (fun y => fun_of m y f c r) x 1.
Proof.
  intros W A U Pu F f c r P vars x ND HV.
  assert (pos (skel m) f c r) as P'.
  { destruct (uniform_ll _ _ W U) as [H1 H2]. apply (in_shape_pos _ _ _ _ _ W H1). destruct P. repeat split; auto. now rewrite H2. }
  apply (sums_over_ext D vars (fun y => prob (skel m) y f c r)).
  { intros y _ _. now apply (prob_fun Rr). }
  rewrite <- (prob_all_nan (skel m) W A f c r P' (set_nan vars x)) by (intros v Hv; now apply set_nan_In, HV).
  apply (sums_over_nan D (fun y => prob (skel m) y f c r) (fun v => In v (nthq (skel m) f))); auto.
  - intros v y Hv. apply marg1; auto. now apply pure_leaves_norm.
  - intros v Hv. now apply HV.
Qed.

(** a circuit compatible with itself is aligned *)
Lemma ip_aligned a : forall b, ip_ok a b = true -> wf (skel a) -> wf (skel b) -> sorted_leaves a -> sorted_leaves b -> aligned (skel a).
Proof.
  induction a as [l|c co rr lg IH|c co rr w IH|d2 sc cs IH|c IH] using smod_ind'; intros b H Wa Wb Sa Sb.
  - exact I.
  - destruct (as_sum_ip_ok _ _ H I) as (c' & wa & d & wb & E1 & E2 & Hok & _). cbn in E1. injection E1 as <- <-.
    destruct (as_sum_inv _ _ _ E2) as (K1 & K2 & _). rewrite K1 in Wb. unfold sorted_leaves in *. cbn [skel wf aligned] in *. rewrite K2 in Sb.
    apply (IH d); tauto.
  - destruct (as_sum_ip_ok _ _ H I) as (c' & wa & d & wb & E1 & E2 & Hok & _). cbn in E1. injection E1 as <- <-.
    destruct (as_sum_inv _ _ _ E2) as (K1 & K2 & _). rewrite K1 in Wb. unfold sorted_leaves in *. cbn [skel wf aligned] in *. rewrite K2 in Sb.
    apply (IH d); tauto.
  - destruct (ip_ok_cat_inv _ _ _ _ H) as (sc' & ds & ->).
    pose proof (wf_scat _ _ _ Wa) as Wc. pose proof (wf_scat _ _ _ Wb) as Wd.
    pose proof (proj1 (Forall_leaves_cat _ d2 sc cs) Sa) as Sc. pose proof (proj1 (Forall_leaves_cat _ d2 sc' ds) Sb) as Sd.
    cbn [skel aligned]. rewrite go_Forall. destruct d2.
    + assert (ds <> []) as Nd by (cbn in Wb; destruct Wb as [B _]; intros ->; now apply B).
      destruct ds as [|d ds]; [congruence|]. assert (In d (d :: ds)) as Hd by now left.
      rewrite Forall_forall in IH, Wc, Wd, Sc, Sd. split.
      * apply (proj2 (Forall_map skel aligned cs)). apply Forall_forall. intros c Hc.
        apply (IH c Hc d); [now apply (ip_ok_cat2 _ _ _ _ H)|now apply Wc|now apply Wd|now apply Sc|now apply Sd].
      * intros _. rewrite map_map. apply (proj2 (Forall_map skel _ cs)). apply Forall_forall. intros c Hc.
        assert (forall c, In c cs -> fts (skel c) = fts (skel d)) as E.
        { intros c' Hc'. apply fts_eq; [now apply (ip_ok_cat2 _ _ _ _ H)|now apply Wc|now apply Wd|now apply Sc|now apply Sd]. }
        rewrite (E c Hc). destruct cs as [|c0 cs]; [destruct Hc|]. cbn [map hd]. symmetry. apply E. now left.
    + split; [|discriminate]. apply ip_ok_cat1 in H. apply (proj2 (Forall_map skel aligned cs)). apply Forall_forall. intros c Hc.
      destruct (Forall2_In_l _ _ _ _ H Hc) as (d & Hd & Hok). rewrite Forall_forall in IH, Wc, Wd, Sc, Sd.
      apply (IH c Hc d); [assumption|now apply Wc|now apply Wd|now apply Sc|now apply Sd].
  - cbn [ip_ok] in H. apply andb_true_iff in H. destruct H as [_ H]. destruct b as [| | | |d]; try discriminate.
    cbn in Wa, Wb |- *. apply (IH d); auto.
Qed.

(** ** the absolute-weight proposal *)
Section prop.
Variable eps : R.
Hypothesis eps_big : / 10 ^ 12 <= eps.

Lemma eps_pos : 0 < eps.
Proof using eps_big. assert (0 < / 10 ^ 12) by (apply Rinv_0_lt_compat, pow_lt; lra). lra. Qed.

Lemma abs_sum_big n w : (0 < n)%nat -> / 10 ^ 12 <= bsum n (fun j => Rabs (w j) + eps).
Proof using eps_big.
  intros Hn. pose proof eps_pos. apply Rle_trans with (Rabs (w 0%nat) + eps); [pose proof (Rabs_pos (w 0%nat)); lra|].
  apply (bsum_term_le n (fun j => Rabs (w j) + eps) 0%nat); [assumption|]. intros i _. pose proof (Rabs_pos (w i)). lra.
Qed.
Lemma abs_probs_pos n w i : (0 < n)%nat -> 0 < abs_probs n w eps i.
Proof using eps_big.
  intros Hn. unfold abs_probs. pose proof eps_pos. pose proof (Rabs_pos (w i)).
  apply Rdiv_lt_0_compat; [lra|]. assert (0 < / 10 ^ 12) by (apply Rinv_0_lt_compat, pow_lt; lra).
  eapply Rlt_le_trans; [|apply Rmax_r]. assumption.
Qed.
Lemma abs_probs_sum n w : (0 < n)%nat -> bsum n (abs_probs n w eps) = 1.
Proof using eps_big.
  intros Hn. pose proof (abs_sum_big n w Hn) as B. unfold abs_probs. rewrite Rmax_left by assumption. rewrite bsum_div.
  assert (0 < / 10 ^ 12) by (apply Rinv_0_lt_compat, pow_lt; lra). field. lra.
Qed.
Lemma abs_softmax n w i : (i < n)%nat -> softmax n (fun j => ln (abs_probs n w eps j)) i = abs_probs n w eps i.
Proof using eps_big.
  intros Hi. assert (0 < n)%nat as Hn by lia. apply (softmax_ln n (abs_probs n w eps)); [assumption| |now apply abs_probs_sum].
  intros j _. now apply abs_probs_pos.
Qed.

Lemma prop_cat_inv cs ps : mapR (proposal eps) cs = Ok ps -> Forall2 (fun c p => proposal eps c = Ok p) cs ps.
Proof. apply mapR_ok. Qed.

Lemma prop_sim m : forall p, proposal eps m = Ok p -> sim (skel m) (skel p).
Proof.
  induction m as [l|c co rr lg IH|c co rr w IH|d2 sc cs IH|c IH] using smod_ind'; intros p H; cbn [proposal] in H.
  - injection H as <-. destruct l as [l|sc ch rep K w]; [apply sim_refl|]. cbn. constructor; auto.
  - destruct (proposal eps c) as [c'|]; [|discriminate]. cbn in H. injection H as <-. cbn [skel]. apply sim_sum. now apply IH.
  - destruct (negb (Nat.eqb co 1)); [discriminate|]. destruct (proposal eps c) as [c'|]; [|discriminate]. cbn in H. injection H as <-.
    cbn [skel]. apply sim_sum. now apply IH.
  - destruct (mapR (proposal eps) cs) as [ps|] eqn:E; [|discriminate]. cbn in H. injection H as <-. cbn [skel]. apply sim_cat, Forall2_map2.
    apply mapR_ok in E. induction E as [|c p cs ps H F IHf]; constructor; [inversion IH; auto|]. apply IHf. now inversion IH.
  - destruct (proposal eps c) as [c'|]; [|discriminate]. cbn in H. injection H as <-. cbn [skel]. apply sim_product. now apply IH.
Qed.

Lemma prop_pure m : forall p, proposal eps m = Ok p -> monotone p.
Proof.
  induction m as [l|c co rr lg IH|c co rr w IH|d2 sc cs IH|c IH] using smod_ind'; intros p H; cbn [proposal] in H.
  - injection H as <-. destruct l; exact I.
  - destruct (proposal eps c) as [c'|]; [|discriminate]. cbn in H. injection H as <-. cbn. now apply IH.
  - destruct (negb (Nat.eqb co 1)); [discriminate|]. destruct (proposal eps c) as [c'|]; [|discriminate]. cbn in H. injection H as <-. cbn. now apply IH.
  - destruct (mapR (proposal eps) cs) as [ps|] eqn:E; [|discriminate]. cbn [bind] in H. injection H as <-. apply pure_cat.
    apply mapR_ok in E. induction E as [|c p cs ps H F IHf]; constructor; [inversion IH; auto|]. apply IHf. now inversion IH.
  - destruct (proposal eps c) as [c'|]; [|discriminate]. cbn in H. injection H as <-. cbn. now apply IH.
Qed.

Lemma prop_leaves m : forall p, proposal eps m = Ok p -> sleaves p = map (proposal_leaf eps) (sleaves m).
Proof.
  induction m as [l|c co rr lg IH|c co rr w IH|d2 sc cs IH|c IH] using smod_ind'; intros p H; cbn [proposal] in H.
  - injection H as <-. reflexivity.
  - destruct (proposal eps c) as [c'|]; [|discriminate]. cbn in H. injection H as <-. cbn. now apply IH.
  - destruct (negb (Nat.eqb co 1)); [discriminate|]. destruct (proposal eps c) as [c'|]; [|discriminate]. cbn in H. injection H as <-. cbn. now apply IH.
  - destruct (mapR (proposal eps) cs) as [ps|] eqn:E; [|discriminate]. cbn [bind] in H. injection H as <-. rewrite !sleaves_cat, concat_map, map_map. f_equal.
    apply mapR_ok in E. induction E as [|c p cs ps H F IHf]; [reflexivity|]. cbn. inversion IH; subst. f_equal; auto.
  - destruct (proposal eps c) as [c'|]; [|discriminate]. cbn in H. injection H as <-. cbn. now apply IH.
Qed.

Lemma prop_leaf_fits D l : sleaf_fits D l -> sleaf_fits D (proposal_leaf eps l).
Proof.
  destruct l as [l|sc ch rep K w]; [auto|]. intros [HK H]. cbn in *. intros f c r Hf Hc Hr. split; [|left; now apply H].
  cbn. destruct K; [lia|reflexivity].
Qed.
Lemma prop_support m p : proposal eps m = Ok p -> uniform_support m -> uniform_support p.
Proof.
  intros E. unfold uniform_support. rewrite (prop_leaves m p E). intros H. apply (proj2 (Forall_map _ _ _)).
  eapply Forall_impl; [|exact H]. intros [l|sc ch rep K w]; [auto|]. intros _ f c r _ a. reflexivity.
Qed.

Lemma pure_nonneg m x : monotone m -> forall f c r, 0 <= fun_of m x f c r.
Proof.
  induction m as [l|ch co rr lg IH|ch co rr w IH|d2 sc cs IH|ch IH] using smod_ind'; intros Pu f c r.
  - destruct l as [l|]; [|destruct Pu]. cbn. unfold leaf_fun. destruct (x _); [apply pr_nonneg|lra].
  - cbn [fun_of]. apply bsum_nonneg. intros i Hi. apply Rmult_le_pos; [left; apply softmax_pos; lia|now apply IH].
  - destruct Pu.
  - apply pure_cat in Pu. cbn [fun_of]. unfold catp.
    rewrite (pick_map (sdim d2) fst (fun ch => (sdim d2 ch, fun_of ch x))) by reflexivity.
    destruct (pick (sdim d2) cs (if d2 then c else f)) as [[m k]|] eqn:E; [|lra].
    apply pick_In in E. destruct E as [Hin _]. rewrite Forall_forall in IH, Pu. cbn. destruct d2; apply IH; auto.
  - cbn [fun_of]. apply bprod_nonneg. intros g Hg. now apply IH.
Qed.

(** absolute continuity: where the proposal is zero, the component is zero *)
Lemma prop_ac Rr m x : wf (skel m) ->
  Forall (fun l => match l with SFam _ => True | SSC sc _ _ K _ => (0 < K)%nat /\ forall v, In v (query sc) -> x v <> None end) (sleaves m) ->
  forall p, proposal eps m = Ok p -> forall f c r, pos_ok Rr m f c r -> fun_of p x f c r = 0 -> fun_of m x f c r = 0.
Proof using eps_big.
  induction m as [l|ch co rr lg IH|ch co rr w IH|d2 sc cs IH|ch IH] using smod_ind'; intros W F p H f c r P Z.
  - cbn [proposal] in H. injection H as <-. destruct l as [l|sc nch rep K w]; [exact Z|]. apply Forall_inv in F. cbn in F. destruct F as [HK HN].
    cbn [fun_of proposal_leaf] in *. unfold leaf_fun in *. cbn [sl_scope mk_fleaf fl_scope fl_fam] in Z. cbn [sl_scope].
    assert (In (nth f (query sc) 0%nat) (query sc)) as Hin by (apply nth_In; destruct P as [P1 _ _]; exact P1).
    specialize (HN _ Hin). destruct (x (nth f (query sc) 0%nat)) as [a|]; [|congruence].
    unfold state_of. destruct (asnat a) as [k|] eqn:E; [|reflexivity]. apply asnat_Some in E. subst a.
    destruct (Nat.ltb_spec k K) as [Hk|]; [|reflexivity]. rewrite pr_categorical, abs_softmax in Z by assumption.
    pose proof (abs_probs_pos K (w f c r) k HK). lra.
  - cbn [proposal] in H. destruct (proposal eps ch) as [c'|] eqn:E; [|discriminate]. cbn in H. injection H as <-. cbn in W. destruct W as [W _].
    cbn [fun_of] in *. pose proof (prop_sim _ _ E) as S. replace (schan c') with (schan ch) in Z by (unfold schan; now rewrite (sim_shape _ _ S)).
    apply bsum_zero. intros i Hi. destruct P as [P1 P2 P3]. rewrite (IH W F c' eq_refl f i r); [ring|constructor; auto|].
    assert (softmax (schan ch) (fun j => lg f j c r) i * fun_of c' x f i r = 0) as Z'.
    { apply (bsum_nonneg_zero (schan ch) (fun i => softmax (schan ch) (fun j => lg f j c r) i * fun_of c' x f i r)); auto.
      intros j Hj. apply Rmult_le_pos; [left; apply softmax_pos; lia|]. apply pure_nonneg. eapply prop_pure; eauto. }
    apply Rmult_integral in Z'. destruct Z' as [Z'|]; [|assumption]. pose proof (softmax_pos (schan ch) (fun j => lg f j c r) i ltac:(lia)). lra.
  - cbn [proposal] in H. destruct (negb (Nat.eqb co 1)); [discriminate|]. destruct (proposal eps ch) as [c'|] eqn:E; [|discriminate]. cbn in H. injection H as <-. cbn in W. destruct W as [W _].
    cbn [fun_of] in *. pose proof (prop_sim _ _ E) as S. replace (schan c') with (schan ch) in Z by (unfold schan; now rewrite (sim_shape _ _ S)).
    apply bsum_zero. intros i Hi. destruct P as [P1 P2 P3]. rewrite (IH W F c' eq_refl f i r); [ring|constructor; auto|].
    assert (0 < schan ch)%nat as Hn by lia.
    assert (softmax (schan ch) (fun j => ln (abs_probs (schan ch) (fun j => w f j c r) eps j)) i * fun_of c' x f i r = 0) as Z'.
    { apply (bsum_nonneg_zero (schan ch) (fun i => softmax (schan ch) (fun j => ln (abs_probs (schan ch) (fun j => w f j c r) eps j)) i * fun_of c' x f i r)); auto.
      intros j Hj. apply Rmult_le_pos; [left; apply softmax_pos; lia|]. apply pure_nonneg. eapply prop_pure; eauto. }
    apply Rmult_integral in Z'. destruct Z' as [Z'|]; [|assumption]. rewrite abs_softmax in Z' by assumption.
    pose proof (abs_probs_pos (schan ch) (fun j => w f j c r) i Hn). lra.
  - cbn [proposal] in H. destruct (mapR (proposal eps) cs) as [ps|] eqn:E; [|discriminate]. cbn [bind] in H. injection H as <-.
    pose proof (wf_scat _ _ _ W) as Wc. apply Forall_leaves_cat in F. apply mapR_ok in E.
    destruct (cat_pos Rr d2 sc cs f c r W P) as (m & k & Hp & Hin & Wm & Pm).
    assert (exists q, proposal eps m = Ok q /\ pick (sdim d2) ps (if d2 then c else f) = Some (q, k)) as (q & Eq & Hq).
    { clear - E Hp. revert Hp. generalize (if d2 then c else f). induction E as [|c0 p cs ps H F IHf]; intros i Hp; [discriminate|].
      cbn [pick] in *. replace (sdim d2 p) with (sdim d2 c0).
      2:{ pose proof (prop_sim _ _ H) as S. unfold sdim, schan, sfeat. now rewrite (sim_shape _ _ S). }
      destruct (Nat.ltb i (sdim d2 c0)); [|now apply IHf]. injection Hp as <- <-. eauto. }
    rewrite (fun_cat d2 sc cs x f c r m k Hp). rewrite (fun_cat d2 sc ps x f c r q k Hq) in Z.
    rewrite Forall_forall in IH, F. destruct d2; apply (IH m Hin Wm (F m Hin) q Eq); auto.
  - cbn [proposal] in H. destruct (proposal eps ch) as [c'|] eqn:E; [|discriminate]. cbn in H. injection H as <-. cbn in W.
    cbn [fun_of] in *. pose proof (prop_sim _ _ E) as S. replace (sfeat c') with (sfeat ch) in Z by (unfold sfeat; now rewrite (sim_shape _ _ S)).
    assert (exists g, (g < sfeat ch)%nat /\ fun_of c' x g c r = 0) as (g & Hg & Zg).
    { revert Z. clear. generalize (sfeat ch). induction n as [|n IHn]; cbn [bprod]; intros Z; [lra|].
      apply Rmult_integral in Z. destruct Z as [Z|Z]; [destruct (IHn Z) as (g & Hg & Zg); exists g; split; [lia|assumption]|exists n; auto]. }
    apply (bprod_zero (sfeat ch) _ g Hg). destruct P as [P1 P2 P3]. apply (IH W F c' eq_refl); auto. constructor; auto.
Qed.
End prop.
