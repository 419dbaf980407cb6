(** Source-level statements and the dsl() context. *)
From Coq Require Import List Arith Bool Lia Lra.
From Verif Require Import Base ScopeModel ScopeProofs CircuitModel CircuitSpec CircuitBasics CircuitEval CircuitProps Integral CircuitMarg MargModel MargProofs SignedModel SignedProofs CnetModel CnetProofs LearnProofs LearnMain PromTop PruneTop DslModel DslSpec DslProofs DslTop DslMain.
Import ListNotations.
Local Open Scope R_scope.

Definition vmods (v : pyval) : list module := match v with VNum _ => [] | VMod m => [m] | VExpr e => emods e end.

Lemma emods2 a b : emods (EProd [a; b]) = emods a ++ emods b.
Proof. rewrite emods_prod. cbn [flat_map]. now rewrite app_nil_r. Qed.
Lemma emods_snoc fs e : emods (EProd (fs ++ [e])) = emods (EProd fs) ++ emods e.
Proof. rewrite !emods_prod, flat_map_app. cbn [flat_map]. now rewrite app_nil_r. Qed.

Lemma pymul_mods on a b v : pymul on a b = Ok v -> vmods v = vmods a ++ vmods b.
Proof.
  intros H. assert (K : forall w e, mk_weighted w e = Ok v -> vmods v = emods e) by (intros w e E; apply mk_weighted_ok in E; destruct E as [-> _]; reflexivity).
  destruct a as [x|m|[m|fs|w e|ts]], b as [y|m'|[m'|fs'|w' e'|ts']]; cbn [pymul as_expr bind] in H; try discriminate H;
    try (destruct on; [|discriminate H]);
    first [ injection H as <-; try rewrite app_nil_r; unfold vmods; first [reflexivity | apply emods2 | apply emods_snoc]
          | rewrite (K _ _ H), ?emods2; unfold vmods; rewrite ?app_nil_r; reflexivity ].
Qed.
Lemma emods_cons w e ts : emods (ESum ((w, e) :: ts)) = emods e ++ emods (ESum ts).
Proof. now rewrite !emods_sum. Qed.
Lemma emods_app ts ts' : emods (ESum (ts ++ ts')) = emods (ESum ts) ++ emods (ESum ts').
Proof. rewrite !emods_sum, map_app. apply flat_map_app. Qed.
Lemma pyadd_mods a b v : pyadd a b = Ok v -> vmods v = vmods a ++ vmods b.
Proof.
  intros H. destruct a as [x|m|[m|fs|w e|ts]], b as [y|m'|[m'|fs'|w' e'|ts']]; cbn [pyadd] in H; try discriminate H.
  - now injection H as <-.
  - apply mk_sumexpr_ok in H. subst v. unfold vmods. rewrite !emods_cons. cbn [emods]. now rewrite app_nil_r.
  - apply mk_sumexpr_ok in H. subst v. unfold vmods. now rewrite !emods_cons.
  - apply mk_sumexpr_ok in H. subst v. unfold vmods. rewrite emods_app, emods_cons. cbn [emods]. now rewrite app_nil_r.
  - apply mk_sumexpr_ok in H. subst v. unfold vmods. now rewrite emods_app.
Qed.
Lemma run_vmods on p v : run on p = Ok v -> vmods v = mods p.
Proof.
  revert v. induction p as [a|m|m|p IHp q IHq|p IHp q IHq|p IHp q IHq]; cbn [run mods]; intros v H.
  - now injection H as <-.
  - now injection H as <-.
  - now injection H as <-.
  - destruct (run on p) as [a|]; [|discriminate]. cbn [bind] in H. destruct (run on q) as [b|]; [|discriminate]. cbn [bind] in H. rewrite (pymul_mods _ _ _ _ H). now rewrite (IHp _ eq_refl), (IHq _ eq_refl).
  - destruct (run on p) as [a|]; [|discriminate]. cbn [bind] in H. destruct (run on q) as [b|]; [|discriminate]. cbn [bind] in H. rewrite (pyadd_mods _ _ _ H). now rewrite (IHp _ eq_refl), (IHq _ eq_refl).
  - destruct (run on p) as [a|]; [|discriminate]. cbn [bind] in H. destruct (run on q) as [b|]; [|discriminate]. cbn [bind] in H.
    rewrite <- (IHp _ eq_refl), <- (IHq _ eq_refl). destruct a as [x|m|e]; cbn [w_helper] in H; try discriminate. destruct b as [y|m|e]; [discriminate| |]; cbn [as_expr bind] in H;
      apply mk_weighted_ok in H; destruct H as [-> _]; reflexivity.
Qed.

(** the circuit a source expression builds *)
Theorem build_src_density Rn on p m : Forall (plain Rn) (mods p) -> inner_normalised p -> build_src on p = Ok m ->
  plain Rn m /\ 0 < total p /\
  forall x c r, (c < channels (out_shape m))%nat -> (r < Rn)%nat -> prob m x 0 c r = arith (fun k => prob k x 0 c r) p / total p.
Proof.
  intros PL N H. unfold build_src in H. destruct (run on p) as [v|] eqn:Er; [|discriminate]. cbn [bind] in H.
  rewrite <- (run_vmods _ _ _ Er) in PL. unfold total. destruct v as [a|k|e]; cbn [build] in H; [discriminate| |].
  - injection H as <-. pose proof (run_reads on p _ Er N I) as K. split; [now inversion PL|]. rewrite K. cbn [unn]. split; [lra|].
    intros x c r _ _. rewrite K. cbn [unn]. field.
  - cbn [vmods] in PL. destruct (ebuild_dens Rn e PL m H) as [PM D].
    assert (Forall built (emods e)) as BB by (eapply Forall_impl; [|exact PL]; intros k Hk; apply Hk).
    destruct (ebuild_sound e BB m H) as [W _]. apply wellformed_pure in W.
    assert (PV : pure_v (VExpr e)) by (destruct e; [exact W|exact W|destruct W|exact W]).
    pose proof (run_reads on p _ Er N PV) as K. split; [exact PM|].
    assert (KT : 0 < unn (fun _ => 1) (VExpr e) /\ forall d, dens d e = unn d (VExpr e) / unn (fun _ => 1) (VExpr e)).
    { destruct e as [k|fs|w e|ts].
      - cbn. split; [lra|]. intros d. field.
      - cbn [unn]. rewrite dens_one by exact W. split; [lra|]. intros d. field.
      - destruct W.
      - rewrite unn_one_sum by exact W. pose proof W as W'. apply pure_sum in W'. destruct W' as [NE P].
        assert (0 < lsumR (map fst ts)) as TP.
        { apply lsumR_pos; [intros Z; apply map_eq_nil in Z; congruence|]. intros w Hw. apply in_map_iff in Hw. destruct Hw as (t & <- & Ht). rewrite Forall_forall in P. now apply P. }
        split; [exact TP|]. intros d. rewrite dens_sum. reflexivity. }
    destruct KT as [KP KD]. rewrite K. split; [exact KP|]. intros x c r Hc Hr. rewrite K, <- KD. unfold prob, loglik. now apply D.
Qed.

(** leaves *)
Lemma ebuild_leaves (Q : leaf -> Prop) e : Forall (fun k => Forall Q (leaves_of k)) (emods e) -> forall m, ebuild e = Ok m -> Forall Q (leaves_of m).
Proof.
  assert (KC : forall d2 sc cs, Forall (fun k => Forall Q (leaves_of k)) cs -> Forall Q (leaves_of (MCat d2 sc cs))).
  { intros d2 sc cs F. rewrite leaves_cat. apply Forall_concat. now apply Forall_map. }
  assert (KM : forall fs ms, Forall (fun e => Forall (fun k => Forall Q (leaves_of k)) (emods e) -> forall m, ebuild e = Ok m -> Forall Q (leaves_of m)) fs ->
    Forall (fun k => Forall Q (leaves_of k)) (flat_map emods fs) -> mapR ebuild fs = Ok ms -> Forall (fun k => Forall Q (leaves_of k)) ms).
  { intros fs ms IH B E. apply mapR_ok in E. apply (proj1 (forall_flat_map (fun k => Forall Q (leaves_of k)) emods fs)) in B. induction E as [|e1 m1 fs ms E _ IHl]; [constructor|].
    inversion IH as [|? ? I1 I2]; subst. inversion B as [|? ? B1 B2]; subst. constructor; [exact (I1 B1 m1 E)|exact (IHl I2 B2)]. }
  induction e as [m|fs IH|w e IH|ts IH] using expr_ind'; intros B m' E.
  - cbn in E. injection E as <-. now inversion B.
  - cbn [ebuild] in E. destruct (mapR ebuild fs) as [ms|] eqn:EM; [|discriminate]. cbn [bind] in E. apply validate_unit in E. destruct E as [_ E]. rewrite emods_prod in B.
    pose proof (KM _ _ IH B EM) as F. unfold mk_product in E. destruct ms as [|m0 [|m1 ms]]; [discriminate| |].
    + injection E as <-. now inversion F.
    + unfold mk_cat in E. destruct (forallb _ _); [|discriminate]. destruct (all_pairwise_disjoint _) as [[]|]; cbn [bind] in E; try discriminate.
      destruct (join_all _) as [sc|]; cbn [bind] in E; [|discriminate]. injection E as <-. exact (KC false sc _ F).
  - discriminate.
  - rewrite ebuild_sum in E. destruct (mapR ebuild (map snd ts)) as [ms|] eqn:EM; [|discriminate]. cbn [bind] in E. apply validate_unit in E. destruct E as [_ E]. cbn zeta in E.
    rewrite emods_sum in B. pose proof (KM _ _ IH B EM) as F.
    destruct (make_sum_weights _ _ _) as [w|]; [|discriminate]. cbn [bind] in E. destruct (sum_inputs ms) as [inp|] eqn:EI; [|discriminate]. cbn [bind] in E.
    assert (Forall Q (leaves_of inp)) as FI.
    { unfold sum_inputs in EI. destruct ms as [|m0 [|m1 ms]]; [discriminate| |].
      - injection EI as <-. now inversion F.
      - unfold mk_cat in EI. destruct (forallb _ _); [|discriminate]. destruct (all_equal _); [|discriminate]. injection EI as <-. exact (KC true (scope_of m0) _ F). }
    apply mk_sum_w_ok in E. destruct E as [_ E]. apply set_weights_ok in E. destruct E as (-> & _). exact FI.
Qed.

Lemma build_src_leaves (Q : leaf -> Prop) on p m : Forall (fun k => Forall Q (leaves_of k)) (mods p) -> build_src on p = Ok m -> Forall Q (leaves_of m).
Proof.
  intros F H. unfold build_src in H. destruct (run on p) as [v|] eqn:Er; [|discriminate]. cbn [bind] in H. rewrite <- (run_vmods _ _ _ Er) in F.
  destruct v as [a|k|e]; cbn [build] in H; [discriminate| |].
  - injection H as <-. now inversion F.
  - eapply ebuild_leaves; eauto.
Qed.

(** addition does not depend on the bracketing *)
Definition good_sum (v : pyval) : Prop := match v with VExpr (EWtd w _) => 0 < w | VExpr (ESum ts) => exists u, mk_sumexpr ts = Ok u | _ => True end.

Lemma pyadd_assoc a b c : good_sum a -> good_sum b -> good_sum c -> bind (pyadd a b) (fun s => pyadd s c) = bind (pyadd b c) (fun s => pyadd a s).
Proof.
  assert (KW : forall w w' e e', 0 < w -> 0 < w' -> mk_sumexpr [(w, e); (w', e')] = Ok (VExpr (ESum [(w, e); (w', e')]))).
  { intros w w' e e' H H'. unfold mk_sumexpr. cbn. rewrite (proj2 (rleb_false w 0)), (proj2 (rleb_false w' 0)) by lra. reflexivity. }
  assert (KA : forall ts, (exists u, mk_sumexpr ts = Ok u) <-> (2 <= length ts)%nat /\ existsb (fun t => rleb (fst t) 0) ts = false).
  { intros ts. unfold mk_sumexpr. destruct (Nat.ltb_spec (length ts) 2); [split; [intros []; discriminate|lia]|]. destruct (existsb _ ts); [split; [intros []; discriminate|intros []; discriminate]|]. split; eauto. }
  assert (KO : forall ts, (2 <= length ts)%nat -> existsb (fun t => rleb (fst t) 0) ts = false -> mk_sumexpr ts = Ok (VExpr (ESum ts))).
  { intros ts L E. unfold mk_sumexpr. destruct (Nat.ltb_spec (length ts) 2); [lia|]. now rewrite E. }
  assert (KR : forall w, 0 < w -> rleb w 0 = false) by (intros w H; apply rleb_false; lra).
  intros Ga Gb Gc.
  destruct a as [x|m|[m|fs|w e|ts]], b as [y|m'|[m'|fs'|w' e'|ts']], c as [z|m''|[m''|fs''|w'' e''|ts'']];
    cbn [good_sum] in Ga, Gb, Gc; cbn [pyadd bind]; try reflexivity; try (now rewrite Rplus_assoc);
    repeat match goal with H : exists u, mk_sumexpr _ = Ok u |- _ => apply KA in H; destruct H end;
    repeat (rewrite KO; [cbn [bind pyadd] | cbn [length]; rewrite ?app_length; cbn [length]; lia | cbn [existsb fst]; rewrite ?existsb_app; cbn [existsb fst]; rewrite ?KR by assumption; repeat match goal with H : existsb _ _ = false |- _ => rewrite H end; reflexivity ]);
    cbn [bind pyadd]; try reflexivity; rewrite <- ?app_assoc, <- ?app_comm_cons; try reflexivity.
Qed.

Lemma good_sum_run on p v : run on p = Ok v -> good_sum v.
Proof.
  assert (KW : forall w e u, mk_weighted w e = Ok u -> good_sum u) by (intros w e u H; apply mk_weighted_ok in H; destruct H as [-> Hw]; exact Hw).
  assert (KS : forall ts u, mk_sumexpr ts = Ok u -> good_sum u) by (intros ts u H; pose proof (mk_sumexpr_ok _ _ H) as ->; cbn; eauto).
  destruct p as [a|m|m|p q|p q|p q]; cbn [run]; intros H.
  - injection H as <-. exact I.
  - injection H as <-. exact I.
  - injection H as <-. exact I.
  - destruct (run on p) as [a|]; [|discriminate]. cbn [bind] in H. destruct (run on q) as [b|]; [|discriminate]. cbn [bind] in H.
    destruct a as [x|m|[m|fs|w e|ts]], b as [y|m'|[m'|fs'|w' e'|ts']]; cbn [pymul as_expr bind] in H; try discriminate H; try (destruct on; [|discriminate H]);
      first [injection H as <-; exact I | now apply KW in H].
  - destruct (run on p) as [a|]; [|discriminate]. cbn [bind] in H. destruct (run on q) as [b|]; [|discriminate]. cbn [bind] in H.
    destruct a as [x|m|[m|fs|w e|ts]], b as [y|m'|[m'|fs'|w' e'|ts']]; cbn [pyadd] in H; try discriminate H; first [injection H as <-; exact I | now apply KS in H].
  - destruct (run on p) as [a|]; [|discriminate]. cbn [bind] in H. destruct (run on q) as [b|]; [|discriminate]. cbn [bind] in H.
    destruct a as [x|m|e]; cbn [w_helper] in H; try discriminate. destruct (as_expr b); [|discriminate]. cbn [bind] in H. now apply KW in H.
Qed.

Theorem sum_bracketing on p q r : run on (SAdd (SAdd p q) r) = run on (SAdd p (SAdd q r)).
Proof.
  cbn [run]. destruct (run on p) as [a|] eqn:Ea; [|reflexivity]. cbn [bind]. destruct (run on q) as [b|] eqn:Eb; [|reflexivity]. cbn [bind].
  destruct (run on r) as [c|] eqn:Ec.
  - cbn [bind]. pose proof (pyadd_assoc a b c (good_sum_run _ _ _ Ea) (good_sum_run _ _ _ Eb) (good_sum_run _ _ _ Ec)) as H.
    etransitivity; [|exact H]. destruct (pyadd a b); reflexivity.
  - cbn [bind]. destruct (pyadd a b); reflexivity.
Qed.

(** dsl() only adds meanings *)
Lemma pymul_on a b v : pymul false a b = Ok v -> pymul true a b = Ok v.
Proof. destruct a as [x|m|[m|fs|w e|ts]], b as [y|m'|[m'|fs'|w' e'|ts']]; cbn [pymul]; intros H; first [exact H | discriminate H]. Qed.
Theorem run_on p v : run false p = Ok v -> run true p = Ok v.
Proof.
  revert v. induction p as [a|m|m|p IHp q IHq|p IHp q IHq|p IHp q IHq]; cbn [run]; intros v H; try exact H.
  - destruct (run false p) as [a|]; [|discriminate]. cbn [bind] in H. destruct (run false q) as [b|]; [|discriminate]. cbn [bind] in H. rewrite (IHp _ eq_refl), (IHq _ eq_refl). cbn [bind]. now apply pymul_on.
  - destruct (run false p) as [a|]; [|discriminate]. cbn [bind] in H. destruct (run false q) as [b|]; [|discriminate]. cbn [bind] in H. now rewrite (IHp _ eq_refl), (IHq _ eq_refl).
  - destruct (run false p) as [a|]; [|discriminate]. cbn [bind] in H. destruct (run false q) as [b|]; [|discriminate]. cbn [bind] in H. now rewrite (IHp _ eq_refl), (IHq _ eq_refl).
Qed.

(** the context manager *)
Lemma exec_spec p : forall o n o' n' t x, exec p o n = (o', n', t, x) ->
  o' = o /\ (n <= n')%nat /\
  (forall i u, In (i, u) t -> (uses false p i /\ u = o) \/ (uses true p i /\ exists k, (n <= k < n')%nat /\ u = patched k)).
Proof.
  induction p as [|i| |p IHp q IHq|p IHp q IHq|p IHp]; intros o n o' n' t x H; cbn [exec] in H.
  - injection H as <- <- <- <-. split; [reflexivity|]. split; [lia|]. intros i u [].
  - injection H as <- <- <- <-. split; [reflexivity|]. split; [lia|]. intros j u [E|[]]. injection E as <- <-. left. cbn. auto.
  - injection H as <- <- <- <-. split; [reflexivity|]. split; [lia|]. intros i u [].
  - destruct (exec p o n) as [[[o1 n1] t1] x1] eqn:E1. destruct (IHp _ _ _ _ _ _ E1) as (-> & L1 & T1). destruct x1.
    + injection H as <- <- <- <-. split; [reflexivity|]. split; [lia|]. intros i u Hi. destruct (T1 i u Hi) as [[U Eu]|[U Eu]]; [left|right]; cbn; auto.
    + destruct (exec q o n1) as [[[o2 n2] t2] x2] eqn:E2. destruct (IHq _ _ _ _ _ _ E2) as (-> & L2 & T2). injection H as <- <- <- <-.
      split; [reflexivity|]. split; [lia|]. intros i u Hi. apply in_app_or in Hi. destruct Hi as [Hi|Hi].
      * destruct (T1 i u Hi) as [[U Eu]|[U (k & Hk & Eu)]]; [left; cbn; auto|right; cbn; split; [auto|exists k; split; [lia|exact Eu]]].
      * destruct (T2 i u Hi) as [[U Eu]|[U (k & Hk & Eu)]]; [left; cbn; auto|right; cbn; split; [auto|exists k; split; [lia|exact Eu]]].
  - destruct (exec p o n) as [[[o1 n1] t1] x1] eqn:E1. destruct (IHp _ _ _ _ _ _ E1) as (-> & L1 & T1). destruct x1.
    + destruct (exec q o n1) as [[[o2 n2] t2] x2] eqn:E2. destruct (IHq _ _ _ _ _ _ E2) as (-> & L2 & T2). injection H as <- <- <- <-.
      split; [reflexivity|]. split; [lia|]. intros i u Hi. apply in_app_or in Hi. destruct Hi as [Hi|Hi].
      * destruct (T1 i u Hi) as [[U Eu]|[U (k & Hk & Eu)]]; [left; cbn; auto|right; cbn; split; [auto|exists k; split; [lia|exact Eu]]].
      * destruct (T2 i u Hi) as [[U Eu]|[U (k & Hk & Eu)]]; [left; cbn; auto|right; cbn; split; [auto|exists k; split; [lia|exact Eu]]].
    + injection H as <- <- <- <-. split; [reflexivity|]. split; [lia|]. intros i u Hi. destruct (T1 i u Hi) as [[U Eu]|[U Eu]]; [left|right]; cbn; auto.
  - destruct (exec p (patched n) (n + 4)) as [[[o1 n1] t1] x1] eqn:E1. destruct (IHp _ _ _ _ _ _ E1) as (-> & L1 & T1). cbn zeta in H. injection H as <- <- <- <-.
    split; [now destruct o|]. split; [lia|]. intros i u Hi. right. destruct (T1 i u Hi) as [[U Eu]|[U (k & Hk & Eu)]]; cbn; (split; [auto|]).
    + exists n. split; [lia|exact Eu].
    + exists k. split; [lia|exact Eu].
Qed.

(** every use sees operators from the block it is written in *)
Lemma nested_events l : nested l -> forall o n saved r,
  exists n' saved', (n <= n')%nat /\ events (l ++ r) o n saved = events r o n' saved' /\ forall k, ~ In (Enter k) l -> saved' k = saved k.
Proof.
  induction 1 as [|k l H IH NI|l l' H IH H' IH']; intros o n saved r.
  - exists n, saved. auto.
  - destruct (IH (patched n) (n + 4)%nat (fun j => if Nat.eqb j k then o else saved j) (Exit k :: r)) as (n' & saved' & L & E & K).
    exists n', saved'. split; [lia|]. split.
    + cbn [app events]. rewrite <- app_assoc. cbn [app]. rewrite E. cbn [events]. rewrite K by exact NI. now rewrite Nat.eqb_refl.
    + intros j Hj. rewrite K.
      * destruct (Nat.eqb_spec j k) as [->|]; [|reflexivity]. exfalso. apply Hj. now left.
      * intros Z. apply Hj. right. apply in_or_app. now left.
  - destruct (IH o n saved (l' ++ r)) as (n1 & s1 & L1 & E1 & K1). destruct (IH' o n1 s1 r) as (n2 & s2 & L2 & E2 & K2).
    exists n2, s2. split; [lia|]. split.
    + now rewrite <- app_assoc, E1.
    + intros k Hk. rewrite K2, K1; [reflexivity| |]; intros Z; apply Hk, in_or_app; auto.
Qed.
