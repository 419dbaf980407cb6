(** Prometheus: mixtures of products. *)
From Coq Require Import List Arith Bool Reals Lia Lra Sorted Permutation.
From Verif Require Import Base ScopeModel ScopeProofs CircuitModel CircuitSpec CircuitBasics CircuitEval CircuitProps MargProofs
  PruneSpec PruneProofs PruneTop PruneMain LearnModel LearnSpec LearnProofs LearnTop LearnMain CnetModel CnetProofs PromModel PromSpec.
Import ListNotations.
Local Open Scope R_scope.

Notation chs m := (channels (out_shape m)).
Lemma spread_length : forall ps ms, length ps = length ms -> length (spread ps ms) = nsum (map (fun m => chs m) ms).
Proof.
  induction ps as [|p ps IH]; destruct ms as [|m ms]; intros H; cbn in H; try discriminate; [reflexivity|].
  cbn [spread map nsum]. rewrite app_length, repeat_length, IH by lia. reflexivity.
Qed.
Lemma spread_pos : forall ps ms, length ps = length ms -> (forall p, In p ps -> 0 < p) -> (forall m, In m ms -> (0 < chs m)%nat) ->
  forall i, (i < length (spread ps ms))%nat -> 0 < nth i (spread ps ms) 0.
Proof.
  induction ps as [|p ps IH]; destruct ms as [|m ms]; intros H HP HM i Hi; cbn in H; try (discriminate || (cbn in Hi; lia)).
  cbn [spread] in *. rewrite app_length, repeat_length in Hi. destruct (Nat.lt_ge_cases i (chs m)) as [L|L].
  - rewrite app_nth1 by (now rewrite repeat_length). rewrite nth_repeat_lt by exact L. apply Rdiv_lt_0_compat; [apply HP; now left|]. apply lt_0_INR. lia.
  - rewrite app_nth2; rewrite repeat_length; [|exact L]. apply IH; [lia|intros; apply HP; now right|intros; apply HM; now right|lia].
Qed.
Lemma spread_split (g : nat -> R) (h : module -> nat -> R) : forall ps ms, length ps = length ms ->
  (forall pre m post, ms = pre ++ m :: post -> forall k, (k < chs m)%nat -> g (nsum (map (fun c => chs c) pre) + k)%nat = h m k) ->
  bsum (length (spread ps ms)) (fun i => nth i (spread ps ms) 0 * g i) =
  lsumR (map (fun p => fst p / INR (chs (snd p)) * bsum (chs (snd p)) (h (snd p))) (combine ps ms)).
Proof.
  intros ps ms. revert g ps. induction ms as [|m ms IH]; intros g [|s ps] HL HG; cbn in HL; try discriminate; [reflexivity|].
  cbn [spread combine]. set (k := chs m) in *. set (x := s / INR k).
  rewrite app_length, repeat_length, bsum_app. cbn [map lsumR fst snd]. fold k. fold x. f_equal.
  - rewrite <- bsum_scal. apply bsum_ext. intros i Hi. rewrite app_nth1 by (now rewrite repeat_length). rewrite nth_repeat_lt by exact Hi. f_equal.
    exact (HG [] m ms eq_refl i Hi).
  - rewrite <- (IH (fun i => g (k + i)%nat) ps).
    + apply bsum_ext. intros i Hi. rewrite app_nth2; rewrite repeat_length; [|lia]. do 2 f_equal. lia.
    + lia.
    + intros pre m' post E j Hj. specialize (HG (m :: pre) m' post ltac:(cbn; now rewrite E) j Hj). rewrite <- HG.
      f_equal. cbn [map nsum]. fold k. lia.
Qed.
Lemma lsumR_nth l : lsumR l = bsum (length l) (fun i => nth i l 0).
Proof. induction l as [|a l IH]; [reflexivity|]. cbn [lsumR length]. rewrite bsum_S_first, IH. reflexivity. Qed.
Lemma spread_total : forall ps ms, length ps = length ms -> (forall m, In m ms -> (0 < chs m)%nat) -> lsumR (spread ps ms) = lsumR ps.
Proof.
  induction ps as [|p ps IH]; destruct ms as [|m ms]; intros H HM; cbn in H; try discriminate; [reflexivity|].
  cbn [spread lsumR]. rewrite lsumR_app, IH by (try (intros; apply HM; now right); lia). f_equal.
  assert (forall x k, lsumR (repeat x k) = INR k * x) as ->.
  { intros x k. induction k as [|k IHk]; [cbn; lra|]. cbn [repeat lsumR]. rewrite IHk, S_INR. lra. }
  field. apply not_0_INR. specialize (HM m ltac:(now left)). lia.
Qed.
Lemma lsumR_pos l : l <> [] -> (forall x, In x l -> 0 < x) -> 0 < lsumR l.
Proof.
  intros Hl H. destruct l as [|a l]; [congruence|]. cbn [lsumR]. assert (0 <= lsumR l).
  { assert (forall x, In x l -> 0 < x) as H' by (intros; apply H; now right). clear -H'. induction l as [|b l IH]; cbn [lsumR]; [lra|]. specialize (H' b ltac:(now left)) as Hb. assert (0 <= lsumR l) by (apply IH; intros; apply H'; now right). lra. }
  specialize (H a ltac:(now left)). lra.
Qed.

Lemma inputs_ok ref q ms : ms <> [] -> Forall (good ref q) ms ->
  exists inp, sum_inputs ms = Ok inp /\ built inp /\ aligned inp /\ uniform 1 inp /\ features (out_shape inp) = 1%nat /\ evidence (scope_of inp) = [] /\
    (forall v, In v (query (scope_of inp)) <-> In v q) /\ mixes_single_channels inp /\ chs inp = nsum (map (fun m => chs m) ms) /\
    one_channel inp /\ (forall sc cs, inp <> MCat false sc cs) /\
    forall s pre m post, ms = pre ++ m :: post -> forall k, (k < chs m)%nat ->
      pev s inp 0 (nsum (map (fun c => chs c) pre) + k) 0 = pev s m 0 k 0.
Proof.
  intros Hms H. pose proof H as H'. rewrite Forall_forall in H'.
  destruct ms as [|m0 [|m1 ms]]; [congruence| |].
  - pose proof (H' m0 ltac:(now left)) as G. exists m0. split; [reflexivity|].
    do 7 (split; [apply G|]). split; [cbn; lia|]. split; [apply G|]. split; [apply G|].
    intros s pre m post E k Hk. destruct pre as [|? pre]; [|destruct pre; discriminate]. cbn in E. injection E as <- <-. reflexivity.
  - destruct (good_cat q ref (m0 :: m1 :: ms) ltac:(discriminate) H) as (sc & E & B & A & U & F & Ev & V & M & C).
    exists (MCat true sc (m0 :: m1 :: ms)). split; [exact E|]. do 8 (split; [assumption|]). split; [apply one_other; discriminate|]. split; [discriminate|].
    intros s pre m post Em k Hk. rewrite Em. apply pev_cat2. exact Hk.
Qed.

Lemma mix_ok ref q ps ms : (1 <= ref)%nat -> ms <> [] -> length ps = length ms -> (forall p, In p ps -> 0 < p) -> Forall (good ref q) ms ->
  exists m, mix_products ps ms = Ok m /\ good ref q m /\
    ((length ms = 1%nat /\ m = hd m ms) \/
     (chs m = 1%nat /\ forall s, pev s m 0 0 0 = lsumR (map (fun p => fst p / lsumR ps * (bsum (chs (snd p)) (fun c => pev s (snd p) 0 c 0) / INR (chs (snd p)))) (combine ps ms)))).
Proof.
  intros Hr Hms HL HP H. unfold mix_products. pose proof H as H'. rewrite Forall_forall in H'.
  assert (HC : forall m, In m ms -> (0 < chs m)%nat) by (intros m Hm; eapply good_ch, (H' m Hm)).
  set (w0 := spread ps ms). set (tot := lsumR w0). set (w := map (fun a => a / tot) w0).
  assert (Hps : ps <> []) by (intros ->; destruct ms; [congruence|discriminate]).
  assert (ET : tot = lsumR ps) by (unfold tot, w0; now apply spread_total).
  assert (TP : 0 < tot) by (rewrite ET; now apply lsumR_pos).
  assert (NW : forall i, nth i w 0 = nth i w0 0 / tot).
  { intros i. unfold w. replace 0 with ((fun a => a / tot) 0) at 1 by (unfold Rdiv; lra). apply (map_nth (fun a => a / tot)). }
  assert (LW0 : length w = length w0) by apply map_length.
  destruct (inputs_ok ref q ms Hms H) as (inp & EI & B & A & U & F & Ev & V & M & C & O1 & NC & PE).
  assert (LW : length w = chs inp) by (rewrite LW0; unfold w0; rewrite spread_length, C by exact HL; reflexivity).
  assert (WP : forall i, (i < length w)%nat -> 0 < nth i w 0).
  { intros i Hi. rewrite NW. apply Rdiv_lt_0_compat; [|exact TP]. apply spread_pos; auto. now rewrite LW0 in Hi. }
  assert (WS : bsum (length w) (fun i => nth i w 0) = 1).
  { rewrite LW0. transitivity (bsum (length w0) (fun i => nth i w0 0) / tot); [rewrite <- bsum_div; apply bsum_ext; intros; apply NW|].
    rewrite <- lsumR_nth. fold tot. field. lra. }
  set (W := mkW 1 (length w) 1 1 (fun _ i _ _ => nth i w 0)).
  assert (EM : mk_sum_w inp 1 1 (W4 W) = Ok (MSum inp 1 1 (fun f i o r => ln (nth i w 0)))).
  { apply (mk_sum_w_intro inp W); cbn; auto. }
  assert (CP : (0 < chs inp)%nat). { rewrite C. destruct ms as [|m0 ms]; [congruence|]. cbn [map nsum]. specialize (HC m0 ltac:(now left)). lia. }
  assert (exists m, bind (sum_inputs ms) (fun inp => mk_sum_w inp 1 1 (W4 W)) = Ok m /\ good ref q m /\ chs m = 1%nat /\
    forall s, pev s m 0 0 0 = lsumR (map (fun p => fst p / lsumR ps * (bsum (chs (snd p)) (fun c => pev s (snd p) 0 c 0) / INR (chs (snd p)))) (combine ps ms))) as (m & Em & Gm & Cm & Pm).
  { rewrite EI. cbn [bind]. rewrite EM. eexists. split; [reflexivity|].
    set (m := MSum inp 1 1 (fun f i o r => ln (nth i w 0))) in *.
    split; [constructor|split; [reflexivity|]].
    - eapply b_sum_w; [exact B|exact EM].
    - exact A.
    - split; [exact U|reflexivity].
    - exact F.
    - exact Ev.
    - exact V.
    - cbn. lia.
    - intros c co rr lg E. injection E as <- <- <- <-. reflexivity.
    - discriminate.
    - now apply mixes_sum.
    - intros s. unfold m. rewrite pev_sum by exact CP. rewrite <- LW.
      transitivity (bsum (length w0) (fun i => nth i w0 0 * pev s inp 0 i 0) / tot).
      + rewrite <- LW0, <- bsum_div. apply bsum_ext. intros i Hi. rewrite softmax_ln by assumption. rewrite NW.
        replace (bidx 1 0) with 0%nat by (unfold bidx; destruct (Nat.eqb _ _); reflexivity).
        unfold bidx. destruct (Nat.eqb _ _); unfold Rdiv; ring.
      + unfold w0. rewrite (spread_split (fun i => pev s inp 0 i 0) (fun m c => pev s m 0 c 0)); [|exact HL|intros pre m' post E k Hk; now apply PE with (post := post)].
        unfold Rdiv at 1. rewrite <- lsumR_map_scal_r. apply lsumR_map_ext. intros p Hp. rewrite ET. unfold Rdiv. ring. }
  destruct ms as [|m0 [|m1 ms']]; [congruence| |].
  - exists m0. split; [reflexivity|]. split; [apply H'; now left|]. left. split; reflexivity.
  - exists m. split; [exact Em|]. split; [exact Gm|]. right. auto.
Qed.

Lemma good_weaken ref ref' q m : good ref q m -> (chs m <= ref')%nat -> good ref' q m.
Proof. intros G H. constructor; try apply G. exact H. Qed.
