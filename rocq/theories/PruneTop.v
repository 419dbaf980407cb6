From Coq Require Import List Arith Bool Reals Lia Lra.
From Verif Require Import Base ScopeModel ScopeProofs CircuitModel CircuitSpec CircuitBasics CircuitEval CircuitProps MargProofs
  PruneModel PruneSpec PruneProofs.
Import ListNotations.
Local Open Scope R_scope.

Lemma uniform_reps R0 m : wf m -> uniform R0 m -> ll_reps m = R0.
Proof.
  intros W U. destruct (uniform_ll m R0 W U) as [E1 E2]. destruct (ll_shape_spec m _ W E1) as (_ & _ & E3). congruence.
Qed.
Lemma uniform_cat R0 d2 sc cs : uniform R0 (MCat d2 sc cs) <-> Forall (uniform R0) cs.
Proof. cbn [uniform]. apply go_Forall. Qed.
Lemma aligned_cat d2 sc cs : aligned (MCat d2 sc cs) <-> Forall aligned cs /\ (d2 = true -> Forall (fun c => fts c = hd [] (map fts cs)) cs).
Proof. cbn [aligned]. rewrite go_Forall. tauto. Qed.

(** what prune_sums keeps *)
Record keeps (R0 : nat) (m m' : module) : Prop := {
  k_wf : wf m'; k_al : aligned m'; k_un : uniform R0 m';
  k_sh : out_shape m' = out_shape m; k_sc : scope_of m' = scope_of m; k_fts : fts m' = fts m;
  k_sum : is_sumb m' = is_sumb m;
  k_built : built m -> built m';
  k_ev : forall s f c r, (f < features (out_shape m))%nat -> (c < channels (out_shape m))%nat -> (r < R0)%nat ->
           pev s m' f c r = pev s m f c r }.

Lemma keeps_refl R0 m : wf m -> aligned m -> uniform R0 m -> keeps R0 m m.
Proof. intros. constructor; auto. Qed.
Lemma keeps_trans R0 a b c : keeps R0 a b -> keeps R0 b c -> keeps R0 a c.
Proof.
  intros [A1 A2 A3 A4 A5 A6 A7 A8 A9] [B1 B2 B3 B4 B5 B6 B7 B8 B9]. constructor; auto; try congruence.
  intros s f ch r Hf Hc Hr. rewrite B9 by (rewrite ?A4; assumption). now apply A9.
Qed.

Lemma cat_child R0 sc cs c : wf (MCat true sc cs) -> aligned (MCat true sc cs) -> uniform R0 (MCat true sc cs) -> In c cs ->
  wf c /\ aligned c /\ uniform R0 c /\ features (out_shape c) = features (out_shape (MCat true sc cs)) /\
  scope_eqb (scope_of c) sc = true /\ fts c = fts (MCat true sc cs).
Proof.
  intros W A U Hc. pose proof (wf_cat_children _ _ _ W) as Wc. rewrite aligned_cat in A. destruct A as [Ac Af].
  rewrite uniform_cat in U. rewrite Forall_forall in Wc, Ac, U. specialize (Af eq_refl). rewrite Forall_forall in Af.
  cbn in W. destruct W as (Hne & _ & HF & HE & Hsc). rewrite Forall_forall in HF.
  destruct cs as [|c0 cs]; [congruence|]. cbn [hd] in *.
  do 3 (split; [auto|]). split; [|split].
  - rewrite (HF c Hc). reflexivity.
  - rewrite Hsc. apply HE; [assumption|now left].
  - rewrite (Af c Hc). reflexivity.
Qed.

Section Merge.
Variables (R0 : nat) (sc : scope) (cs : list module) (co : nat) (lg : nat -> nat -> nat -> nat -> R).
Let m := MSum (MCat true sc cs) co R0 lg.
Hypothesis W : wf m.
Hypothesis A : aligned m.
Hypothesis U : uniform R0 m.
Hypothesis Hne : cs <> [].
Hypothesis HS : forallb is_sumb cs = true.
Hypothesis G : mixes_single_channels m.

Let F := features (out_shape (MCat true sc cs)).
Let Q (c : module) : Prop := wf c /\ aligned c /\ uniform R0 c /\ features (out_shape c) = F /\
  scope_eqb (scope_of c) sc = true /\ fts c = fts (MCat true sc cs).

Lemma child_form c : In c cs -> exists ch lgc, c = MSum ch 1 R0 lgc /\ Q ch /\ (forall sc' cs', ch <> MCat false sc' cs') /\ one_channel ch.
Proof.
  intros Hc. rewrite forallb_forall in HS. pose proof (HS c Hc) as E. destruct c as [|ch co' rr' lgc| |]; try discriminate.
  assert (Wc : wf (MCat true sc cs)) by exact (proj1 W). assert (Uc : uniform R0 (MCat true sc cs)) by exact (proj1 U).
  destruct (cat_child R0 sc cs _ Wc A Uc Hc) as (B1 & B2 & B3 & B4 & B5 & B6).
  assert (co' = 1)%nat as ->.
  { pose proof (G (MCat true sc cs)) as K. cbn in K. rewrite Forall_forall in K. eapply (K ltac:(apply node_sum, node_refl) _ Hc). reflexivity. }
  cbn [uniform] in B3. destruct B3 as [B3 ->]. exists ch, lgc. split; [reflexivity|]. split.
  - split; [cbn in B1; tauto|]. split; [exact B2|]. split; [exact B3|]. split; [exact B4|]. split; [exact B5|exact B6].
  - pose proof (G (MSum ch 1 R0 lgc)) as K. cbn in K.
    destruct (K ltac:(apply node_sum; eapply node_cat; [exact Hc|apply node_refl])) as [K1 K2]. split; assumption.
Qed.

Lemma ins_Q c : In c (map sum_input cs) -> Q c /\ (forall sc' cs', c <> MCat false sc' cs') /\ one_channel c.
Proof.
  intros H. apply in_map_iff in H. destruct H as (d & <- & Hd). destruct (child_form d Hd) as (ch & lgc & -> & K). exact K.
Qed.

Lemma cats_form : forallb is_catb (map sum_input cs) = true ->
  Forall (fun c => exists sc' cs', c = MCat true sc' cs') (map sum_input cs).
Proof.
  intros H. rewrite forallb_forall in H. apply Forall_forall. intros c Hc. specialize (H c Hc).
  destruct c as [| |[|] sc' cs'|]; try discriminate; [eauto|].
  destruct (ins_Q _ Hc) as (_ & K & _). exfalso. exact (K sc' cs' eq_refl).
Qed.

Lemma new_Q c : In c (new_inputs cs) -> Q c /\ one_channel c.
Proof.
  unfold new_inputs. destruct (forallb is_catb (map sum_input cs)) eqn:E.
  - intros H. apply in_flat_map in H. destruct H as (d & Hd & Hc).
    pose proof (cats_form E) as K. rewrite Forall_forall in K. destruct (K d Hd) as (sc' & cs' & ->). cbn [cat_inputs] in Hc.
    destruct (ins_Q _ Hd) as ((W1 & A1 & U1 & F1 & S1 & T1) & _).
    destruct (cat_child R0 sc' cs' c W1 A1 U1 Hc) as (B1 & B2 & B3 & B4 & B5 & B6). split.
    + split; [exact B1|]. split; [exact B2|]. split; [exact B3|]. split; [congruence|]. split; [|congruence].
      eapply scope_eqb_trans; [exact B5|exact S1].
    + apply in_map_iff in Hd. destruct Hd as (x & Ex & Hx). destruct (child_form x Hx) as (ch & lgc & -> & _). cbn in Ex. subst ch.
      pose proof (G (MCat true sc' cs')) as KG. cbn in KG. rewrite Forall_forall in KG. apply KG; [|exact Hc].
      apply node_sum. eapply node_cat; [exact Hx|]. apply node_sum, node_refl.
  - intros H. destruct (ins_Q _ H) as (B1 & _ & B2). split; assumption.
Qed.

Lemma new_hd : exists c0 rest, new_inputs cs = c0 :: rest /\ scope_of c0 = sc.
Proof.
  assert (Wc : wf (MCat true sc cs)) by exact (proj1 W). cbn in Wc. destruct Wc as (_ & _ & _ & _ & Hsc).
  assert (exists x cs', cs = x :: cs') as (x & cs' & Ecs) by (clear -Hne; destruct cs; [congruence|eauto]).
  rewrite Ecs in Hsc. cbn [hd] in Hsc.
  assert (Hx : In x cs) by (rewrite Ecs; now left). destruct (child_form x Hx) as (ch & lgc & -> & ((W1 & A1 & U1 & _) & K & _)).
  cbn [scope_of] in Hsc. unfold new_inputs. destruct (forallb is_catb (map sum_input cs)) eqn:E.
  - pose proof (cats_form E) as KC. rewrite Ecs in KC. cbn [map sum_input] in KC. pose proof (Forall_inv KC) as (sc' & cs2 & ->).
    rewrite Ecs. cbn [map sum_input flat_map cat_inputs]. cbn in W1. destruct W1 as (N1 & _ & _ & _ & S1).
    destruct cs2 as [|c0 cs2]; [congruence|]. cbn [app]. eexists _, _. split; [reflexivity|]. cbn [hd] in S1. cbn [scope_of] in Hsc. congruence.
  - rewrite Ecs. cbn [map sum_input]. eexists _, _. split; [reflexivity|]. congruence.
Qed.

Lemma new_cat : mk_cat true (new_inputs cs) = Ok (MCat true sc (new_inputs cs)).
Proof.
  destruct new_hd as (c0 & rest & E & Es).
  assert (K : forall c, In c (c0 :: rest) -> Q c) by (intros c Hc; rewrite <- E in Hc; now apply new_Q).
  rewrite E, <- Es. apply mk_cat_true_intro.
  - intros c Hc. destruct (K c Hc) as (_ & _ & _ & -> & _), (K c0 ltac:(now left)) as (_ & _ & _ & -> & _). reflexivity.
  - intros c c' Hc Hc'. destruct (K c Hc) as (_ & _ & _ & _ & S1 & _), (K c' Hc') as (_ & _ & _ & _ & S2 & _).
    eapply scope_eqb_trans; [exact S1|]. rewrite scope_eqb_sym. exact S2.
Qed.

Lemma new_nch : nsum (map (fun c => channels (out_shape c)) (new_inputs cs)) = nsum (map (fun c => channels (out_shape c)) (map sum_input cs)).
Proof.
  unfold new_inputs. destruct (forallb is_catb (map sum_input cs)) eqn:E; [|reflexivity]. apply nch_flat, cats_form, E.
Qed.
Lemma new_pick s f j r : mpick (fun x k => pev s x f k r) (new_inputs cs) j = mpick (fun x k => pev s x f k r) (map sum_input cs) j.
Proof.
  unfold new_inputs. destruct (forallb is_catb (map sum_input cs)) eqn:E; [|reflexivity]. apply mpick_flat, cats_form, E.
Qed.

Lemma old_channels : channels (out_shape (MCat true sc cs)) = length cs.
Proof.
  rewrite cat_nch. assert (K : forall c, In c cs -> channels (out_shape c) = 1%nat).
  { intros c Hc. destruct (child_form c Hc) as (ch & lgc & -> & _). reflexivity. }
  clear -K. induction cs as [|c l IH]; [reflexivity|]. cbn [map nsum length]. rewrite K by now left. rewrite IH; [reflexivity|].
  intros; apply K; now right.
Qed.
Lemma old_pick s f k r : (k < length cs)%nat -> pev s (MCat true sc cs) f k r = pev s (nth k cs (MCat true (mkScope [] []) [])) f 0 r.
Proof.
  rewrite <- (mpick_cat s sc). assert (K : forall c, In c cs -> channels (out_shape c) = 1%nat).
  { intros c Hc. destruct (child_form c Hc) as (ch & lgc & -> & _). reflexivity. }
  clear -K. revert k. induction cs as [|c l IH]; intros k Hk; cbn in Hk; [lia|]. cbn [mpick]. rewrite K by now left.
  destruct k as [|k]; [reflexivity|]. cbn [Nat.ltb Nat.leb nth]. rewrite Nat.sub_succ, Nat.sub_0_r. apply IH; [|lia].
  intros; apply K; now right.
Qed.

Lemma merge_ok : exists lg', merge_sums true sc cs co R0 lg = Ok (MSum (MCat true sc (new_inputs cs)) co R0 lg') /\
  keeps R0 m (MSum (MCat true sc (new_inputs cs)) co R0 lg').
Proof.
  set (cur := weights_of m).
  assert (HSing : Forall (single F R0) cs).
  { apply Forall_forall. intros c Hc. destruct (child_form c Hc) as (ch & lgc & -> & (W1 & _ & _ & F1 & _) & _).
    exists ch, lgc. split; [reflexivity|]. split; [exact F1|]. apply wf_cpos, wf_wf1, W1. }
  assert (Hco : (1 <= co)%nat) by exact (proj2 W).
  assert (NC : (0 < channels (out_shape (MCat true sc cs)))%nat) by (apply wf_cpos, wf_wf1; exact (proj1 W)).
  destruct (merge_weights F co R0 cur eq_refl eq_refl eq_refl cs Hne HSing 0) as (us & t & E1 & _ & E2 & TF & TO & TR & TI & TP & TS).
  { cbn [cur weights_of m wI]. rewrite old_channels. lia. }
  assert (CP : forall f k o r, 0 < wv cur f k o r) by (intros; cbn [cur weights_of m wv]; apply softmax_pos; exact NC).
  set (nc := MCat true sc (new_inputs cs)).
  assert (NF : features (out_shape nc) = F).
  { destruct new_hd as (c0 & rest & E & _). cbn [nc out_shape]. rewrite E. cbn [map hd_shape hd features].
    apply (new_Q c0). rewrite E. now left. }
  assert (NCH : channels (out_shape nc) = wI t) by (unfold nc; rewrite cat_nch, new_nch; symmetry; exact TI).
  assert (S1 : forall f o r, (f < F)%nat -> (o < co)%nat -> (r < R0)%nat -> bsum (wI t) (fun j => wv t f j o r) = 1).
  { intros f o r Hf Ho Hr. pose proof (TS (fun _ _ => 1) f o r Hf Ho Hr) as K.
    rewrite (bsum_ext (wI t) _ (fun j => wv t f j o r)) in K.
    2:{ intros j Hj. rewrite mpick_const by (rewrite <- TI; exact Hj). ring. }
    rewrite K. rewrite (bsum_ext (length cs) _ (fun k => wv cur f k o r)).
    - cbn [cur weights_of m wv]. rewrite <- old_channels. apply softmax_sum. exact NC.
    - intros k Hk. cbn zeta. set (c := nth k cs _). destruct (child_form c ltac:(now apply nth_In)) as (ch & lgc & -> & (W1 & _) & _).
      cbn [sum_input weights_of wv]. rewrite (bsum_ext _ _ (softmax (channels (out_shape ch)) (fun j => lgc f j 0%nat r))) by (intros; ring).
      rewrite softmax_sum by (apply wf_cpos, wf_wf1, W1). rewrite Nat.add_0_l. ring. }
  assert (P1 : forall f j o r, (f < F)%nat -> (j < wI t)%nat -> (o < co)%nat -> (r < R0)%nat -> 0 < wv t f j o r).
  { intros f j o r Hf Hj Ho Hr. apply TP; auto. }
  assert (EQ : set_weights nc co R0 t = Ok (MSum nc co R0 (fun f i o r => ln (wv t f i o r)))).
  { rewrite <- TO, <- TR. apply set_weights_intro; rewrite ?TF, ?TO, ?TR; auto; congruence. }
  exists (fun f i o r => ln (wv t f i o r)). split.
  - unfold merge_sums. change (weights_of (MSum (MCat true sc cs) co R0 lg)) with cur. rewrite E1. cbn [bind]. rewrite E2. cbn [bind].
    rewrite new_cat. cbn [bind]. exact EQ.
  - assert (Wn : wf nc).
    { destruct (mk_cat_ok true (new_inputs cs) _ ltac:(apply Forall_forall; intros c Hc; apply (new_Q c Hc)) new_cat) as (sc' & Es & Wn). exact Wn. }
    constructor.
    + cbn [wf]. split; assumption.
    + change (aligned nc). apply aligned_cat. split; [apply Forall_forall; intros c Hc; apply (new_Q c Hc)|]. intros _.
      destruct new_hd as (c0 & rest & E & _). apply Forall_forall. intros c Hc. rewrite E. cbn [map hd].
      destruct (new_Q c Hc) as ((_ & _ & _ & _ & _ & ->) & _). destruct (new_Q c0 ltac:(rewrite E; now left)) as ((_ & _ & _ & _ & _ & ->) & _). reflexivity.
    + cbn [uniform]. split; [|reflexivity]. apply go_Forall, Forall_forall. intros c Hc. apply (new_Q c Hc).
    + cbn [out_shape m]. rewrite NF. reflexivity.
    + reflexivity.
    + change (fts nc = fts (MCat true sc cs)). destruct new_hd as (c0 & rest & E & _). unfold nc. rewrite E. cbn [fts map hd].
      apply (new_Q c0). rewrite E. now left.
    + reflexivity.
    + intros B. pose proof (built_cases _ B) as Bc. cbn in Bc. apply built_cases in Bc. destruct Bc as [Bc _].
      assert (built nc) as Bn.
      { eapply b_cat; [|exact new_cat]. rewrite Forall_forall in Bc. apply Forall_forall. intros c Hc. unfold new_inputs in Hc.
        destruct (forallb is_catb (map sum_input cs)) eqn:E.
        - apply in_flat_map in Hc. destruct Hc as (d & Hd & Hc). pose proof (cats_form E) as K. rewrite Forall_forall in K.
          destruct (K d Hd) as (sc' & cs' & ->). apply in_map_iff in Hd. destruct Hd as (x & Ex & Hx).
          pose proof (Bc x Hx) as Bx. destruct (child_form x Hx) as (ch & lgc & -> & _). cbn in Ex. subst ch.
          apply built_cases in Bx. apply built_cases in Bx. destruct Bx as [Bx _]. rewrite Forall_forall in Bx. now apply Bx.
        - apply in_map_iff in Hc. destruct Hc as (x & <- & Hx). pose proof (Bc x Hx) as Bx.
          destruct (child_form x Hx) as (ch & lgc & -> & _). now apply built_cases in Bx. }
      eapply (b_sum_w nc 1 1 (W4 t)); [exact Bn|]. unfold mk_sum_w. cbn [norm_warg Nat.eqb negb andb].
      destruct (Nat.ltb_spec (wO t) 1); [lia|]. rewrite TO, TR. exact EQ.
    + intros s f o r Hf Ho Hr. change (f < F)%nat in Hf. change (o < co)%nat in Ho.
      rewrite pev_sum by (rewrite NCH, TI, <- new_nch, <- (cat_nch sc); apply wf_cpos, wf_wf1; exact Wn).
      unfold m. rewrite pev_sum by exact NC.
      assert (Un : uniform R0 nc) by (apply uniform_cat, Forall_forall; intros c Hc; apply (new_Q c Hc)).
      rewrite (uniform_reps R0 nc Wn Un), (uniform_reps R0 (MCat true sc cs)) by first [exact (proj1 W)|exact (proj1 U)].
      rewrite (bidx_id R0 r Hr), old_channels, NCH.
      rewrite (bsum_ext (wI t) _ (fun j => wv t f j o r * mpick (fun x k => pev s x f k r) (map sum_input cs) j)).
      2:{ intros j Hj. rewrite softmax_ln by auto. rewrite <- new_pick. f_equal. unfold nc. symmetry. apply mpick_cat. }
      rewrite TS by assumption. apply bsum_ext. intros k Hk. cbn zeta. rewrite Nat.add_0_l. cbn [cur weights_of m wv].
      rewrite old_channels, old_pick by exact Hk. f_equal. set (c := nth k cs _).
      destruct (child_form c ltac:(now apply nth_In)) as (ch & lgc & -> & (W1 & _ & U1 & _) & _).
      rewrite pev_sum by (apply wf_cpos, wf_wf1, W1). cbn [sum_input weights_of wv].
      rewrite (uniform_reps R0 ch W1 U1), (bidx_id R0 r Hr). reflexivity.
Qed.

Lemma merge_good lg' : mixes_single_channels (MSum (MCat true sc (new_inputs cs)) co R0 lg').
Proof.
  intros n Hn. inversion Hn as [|? ? ? ? ? Hn'| |]; subst; [split; [intros ? ? ? ? E; discriminate|discriminate]|].
  inversion Hn' as [| | |? c ? ? ? Hc Hn2]; subst; [apply Forall_forall; intros c Hc; apply (new_Q c Hc)|].
  apply G. unfold new_inputs in Hc. destruct (forallb is_catb (map sum_input cs)) eqn:E.
  - apply in_flat_map in Hc. destruct Hc as (d & Hd & Hc). pose proof (cats_form E) as K. rewrite Forall_forall in K.
    destruct (K d Hd) as (sc' & cs' & ->). apply in_map_iff in Hd. destruct Hd as (x & Ex & Hx).
    destruct (child_form x Hx) as (ch & lgc & -> & _). cbn in Ex. subst ch.
    apply node_sum. eapply node_cat; [exact Hx|]. apply node_sum. eapply node_cat; [exact Hc|exact Hn2].
  - apply in_map_iff in Hc. destruct Hc as (x & <- & Hx). destruct (child_form x Hx) as (ch & lgc & -> & _).
    apply node_sum. eapply node_cat; [exact Hx|]. apply node_sum. exact Hn2.
Qed.

Lemma merge_size lg' : (msize (MSum (MCat true sc (new_inputs cs)) co R0 lg') < msize m)%nat.
Proof.
  cbn [msize m]. assert (K : (list_sum (map msize (new_inputs cs)) <= list_sum (map msize (map sum_input cs)))%nat).
  { unfold new_inputs. destruct (forallb is_catb (map sum_input cs)); [|lia].
    generalize (map sum_input cs). intros l. induction l as [|x l IH]; [reflexivity|]. cbn [flat_map]. rewrite map_app, list_sum_app.
    cbn [map]. unfold list_sum at 3. cbn [fold_right]. fold (list_sum (map msize l)).
    assert (list_sum (map msize (cat_inputs x)) <= msize x)%nat by (destruct x; cbn [cat_inputs msize map]; try (cbn; lia)). lia. }
  assert (K2 : (list_sum (map msize (map sum_input cs)) < list_sum (map msize cs))%nat).
  { assert (Z : forall c, In c cs -> (S (msize (sum_input c)) = msize c)%nat).
    { intros c Hc. destruct (child_form c Hc) as (ch & lgc & -> & _). reflexivity. }
    clear -Z Hne. destruct cs as [|c l]; [congruence|].
    assert (V : forall l', (forall c, In c l' -> S (msize (sum_input c)) = msize c) -> (list_sum (map msize (map sum_input l')) <= list_sum (map msize l'))%nat).
    { induction l' as [|x l' IH]; intros H; [reflexivity|]. cbn [map]. unfold list_sum. cbn [fold_right].
      fold (list_sum (map msize (map sum_input l'))) (list_sum (map msize l')). pose proof (H x ltac:(now left)).
      pose proof (IH ltac:(intros; apply H; now right)). lia. }
    cbn [map]. unfold list_sum. cbn [fold_right]. fold (list_sum (map msize (map sum_input l))) (list_sum (map msize l)).
    pose proof (Z c ltac:(now left)). pose proof (V l ltac:(intros; apply Z; now right)). lia. }
  lia.
Qed.
End Merge.
