(** SOCS.sample: the chain converges to the density of the sum of squares (C46). *)
From Coq Require Import List Arith ZArith Bool Reals Lia Lra Sorted.
From Verif Require Import Base ScopeModel ScopeProofs CircuitModel CircuitBasics CircuitEval CircuitSpec CircuitMarg CircuitProps Integral
  LeafModel LeafSpec LeafProofs LeafTop SampleModel SampleSpec SampleExp SignedModel SignedSpec SignedProofs LipProofs IpProofs SocsProofs MhProofs SocsTop.
Import ListNotations.
Local Open Scope R_scope.

Lemma exists_beta n (t q : nat -> R) : (forall y, 0 <= t y) -> (forall y, 0 <= q y) -> (forall y, (y < n)%nat -> q y = 0 -> t y = 0) ->
  exists beta, 0 < beta <= 1 /\ forall y, (y < n)%nat -> beta * t y <= q y.
Proof.
  intros Ht Hq H. induction n as [|n IH]; [exists 1; split; [lra|lia]|].
  destruct IH as (b & Hb & Hy); [intros; apply H; auto; lia|].
  destruct (Req_dec (t n) 0) as [E|E].
  - exists b. split; [assumption|]. intros y Hy'. destruct (Nat.eq_dec y n) as [->|]; [rewrite E, Rmult_0_r; apply Hq|apply Hy; lia].
  - assert (0 < t n) as Tn by (specialize (Ht n); lra).
    assert (0 < q n) as Qn by (specialize (Hq n); destruct (Req_dec (q n) 0) as [Z|]; [apply H in Z; [lra|lia]|lra]).
    assert (0 < q n / t n) as Pn by now apply Rdiv_lt_0_compat.
    exists (Rmin b (q n / t n)). split; [split; [apply Rmin_glb_lt; lra|eapply Rle_trans; [apply Rmin_l|lra]]|].
    intros y Hy'. destruct (Nat.eq_dec y n) as [->|].
    + apply Rle_trans with (q n / t n * t n); [apply Rmult_le_compat_r; [lra|apply Rmin_r]|]. right. field. lra.
    + apply Rle_trans with (b * t y); [apply Rmult_le_compat_r; [apply Ht|apply Rmin_l]|apply Hy; lia].
Qed.

Lemma unsigned_monotone m : contains_signed m = false -> monotone m.
Proof.
  induction m as [l|c co rr lg IH|c co rr w IH|d2 sc cs IH|c IH] using smod_ind'; cbn [contains_signed]; intros H; auto.
  - destruct l; [exact I|discriminate].
  - discriminate.
  - apply pure_cat. apply Forall_forall. intros m Hm. rewrite Forall_forall in IH. apply IH; auto.
    destruct (contains_signed m) eqn:E; [|reflexivity]. assert (existsb contains_signed cs = true) as X by (apply existsb_exists; eauto). congruence.
Qed.

Lemma eps_ok : / 10 ^ 12 <= / 10 ^ 8.
Proof. apply Rinv_le_contravar; [apply pow_lt; lra|apply Rle_pow; [lra|lia]]. Qed.

Lemma Forall2_nth {A B} (Q : A -> B -> Prop) l l' i da db : Forall2 Q l l' -> (i < length l)%nat -> Q (nth i l da) (nth i l' db).
Proof.
  intros F. revert i. induction F as [|a b l l' H F IH]; intros i Hi; cbn in Hi; [lia|]. destruct i as [|i]; [exact H|]. cbn. apply IH. lia.
Qed.

Lemma choice_fin (n : nat) (Q : nat -> R -> Prop) : (forall i, exists u, (i < n)%nat -> Q i u) -> exists f, forall i, (i < n)%nat -> Q i (f i).
Proof.
  intros H. induction n as [|n IH]; [exists (fun _ => 0); lia|].
  destruct IH as (f & Hf); [intros i; destruct (H i) as (u & Hu); exists u; intros; apply Hu; lia|].
  destruct (H n) as (u & Hu). exists (fun i => if Nat.eqb i n then u else f i). intros i Hi.
  destruct (Nat.eqb_spec i n) as [->|]; [apply Hu; lia|apply Hf; lia].
Qed.

Section comp.
Variables (D : nat -> domain) (dom : nat -> list R) (vars : list nat) (x0 : row).
Hypothesis HD : forall v, In v vars -> D v = DFin (dom v).
Hypothesis ND : NoDup vars.
Let xs := assignments dom vars x0.

Record member (m : smod) : Prop := {
  mb_comp : component 1 D m;
  mb_shape : out_shape (skel m) = mkShape 1 1 1;
  mb_vars : forall v, In v vars <-> In v (query (scope_of (skel m))) }.

Lemma member_pos m : member m -> pos_ok 1 m 0%nat 0%nat 0%nat.
Proof. intros [_ S _]. constructor; unfold sfeat, schan; rewrite ?S; cbn; lia. Qed.
Lemma member_wf m : member m -> wf (skel m).
Proof. intros [[B _ _ _ _ _ _] _ _]. apply built_wf, B. Qed.
Lemma member_vars m : member m -> forall v, In v vars <-> In v (vars_of m 0).
Proof.
  intros M v. rewrite (mb_vars _ M). pose proof (wf_union _ (wf_wf1 _ (member_wf m M)) v) as U. rewrite U, (mb_shape _ M). cbn.
  split; [intros (f & Hf & Hv); now replace f with 0%nat in Hv by lia|intros Hv; exists 0%nat; split; [lia|assumption]].
Qed.

Lemma xs_cols m y : member m -> In y xs -> (forall v, In v (query (scope_of (skel m))) -> exists a, y v = Some a).
Proof.
  intros M Hy v Hv. apply (mb_vars _ M) in Hv. destruct (assignments_In _ _ _ _ Hy) as [H _]. destruct (H v Hv) as (a & _ & E). eauto.
Qed.

(** leaf scopes lie inside the circuit's scope *)
Lemma leaf_scope_in m : wf (skel m) -> forall l, In l (sleaves m) -> forall v, In v (query (sl_scope l)) -> In v (query (scope_of (skel m))).
Proof.
  induction m as [l0|c co rr lg IH|c co rr w IH|d2 sc cs IH|c IH] using smod_ind'; intros W l Hl v Hv.
  - destruct Hl as [<-|[]]. exact Hv.
  - cbn in W. apply (IH (proj1 W) l); auto.
  - cbn in W. apply (IH (proj1 W) l); auto.
  - pose proof (wf_scat _ _ _ W) as Wc. rewrite sleaves_cat in Hl. apply in_concat in Hl. destruct Hl as (ls & Hls & Hl).
    apply in_map_iff in Hls. destruct Hls as (c & <- & Hc). rewrite Forall_forall in IH, Wc.
    specialize (IH c Hc (Wc c Hc) l Hl v Hv). cbn in W |- *. destruct W as (Hn & _ & W). destruct d2.
    + destruct W as (_ & Heq & ->). assert (In (skel c) (map skel cs)) as Hc' by now apply in_map.
      assert (In (hd (MCat true sc []) (map skel cs)) (map skel cs)) as Hh by (destruct (map skel cs); [congruence|now left]).
      specialize (Heq _ _ Hc' Hh). apply scope_eqb_spec in Heq. now apply Heq.
    + destruct W as (_ & _ & _ & HU). apply HU. exists (skel c). split; [now apply in_map|assumption].
  - cbn in W. apply (IH W l); auto.
Qed.

Lemma xs_states m y : member m -> In y xs ->
  Forall (fun l => match l with SFam _ => True | SSC sc _ _ K _ => (0 < K)%nat /\ forall v, In v (query sc) -> exists k, y v = Some (INR k) end) (sleaves m).
Proof.
  intros M Hy. apply Forall_forall. intros l Hl. destruct l as [l|sc ch rep K w]; [trivial|].
  pose proof (cm_fits _ _ _ (mb_comp _ M)) as F. rewrite Forall_forall in F. destruct (F _ Hl) as [HK HF]. split; [assumption|].
  intros v Hv. pose proof (leaf_scope_in m (member_wf m M) _ Hl v Hv) as Hs. apply (mb_vars _ M) in Hs.
  destruct (assignments_In _ _ _ _ Hy) as [H _]. destruct (H v Hs) as (a & Ha & E).
  destruct (In_nth _ _ 0%nat Hv) as (f & Hf & Ef). specialize (HF f Hf). rewrite Ef, (HD v Hs) in HF. injection HF as HF. rewrite HF in Ha.
  apply in_map_iff in Ha. destruct Ha as (k & <- & _). eauto.
Qed.

Lemma xs_cols2 m y : member m -> In y xs ->
  Forall (fun l => match l with SFam _ => True | SSC sc _ _ _ _ => forall v, In v (query sc) -> exists k, y v = Some (INR k) end) (sleaves m).
Proof. intros M Hy. eapply Forall_impl; [|exact (xs_states m y M Hy)]. intros [|]; tauto. Qed.

(** the proposal *)
Lemma proposal_facts m q k : member m -> inner_product_matrix m m = Ok k -> proposal_of m = Ok q ->
  wf (skel q) /\ uniform 1 (skel q) /\ monotone q /\ uniform_support q /\ pos_ok 1 q 0%nat 0%nat 0%nat /\
  lsumR (map (fun y => fun_of q y 0%nat 0%nat 0%nat) xs) = 1 /\
  (forall y, In y xs -> fun_of q y 0%nat 0%nat 0%nat = 0 -> fun_of m y 0%nat 0%nat 0%nat = 0).
Proof.
  intros M Ek E. pose proof (member_wf m M) as W. pose proof (mb_comp _ M) as [[B U] C2 C3 C4 C5 C6 C7].
  assert (ip_ok m m = true) as Hok by (unfold inner_product_matrix in Ek; destruct (ip_ok m m); [reflexivity|discriminate]).
  pose proof (ip_aligned m m Hok W W C2 C2) as A.
  assert (sim (skel m) (skel q) /\ monotone q /\ uniform_support q /\ Forall (sleaf_fits D) (sleaves q) /\
          (forall y, In y xs -> fun_of q y 0%nat 0%nat 0%nat = 0 -> fun_of m y 0%nat 0%nat 0%nat = 0)) as (S & Mo & US & F & AC).
  { unfold proposal_of in E. destruct (contains_signed m) eqn:CS.
    - split; [now apply (prop_sim (/ 10 ^ 8))|]. split; [now apply (prop_pure (/ 10 ^ 8) m)|]. split; [now apply (prop_support (/ 10 ^ 8) m)|]. split.
      + rewrite (prop_leaves _ m q E). apply (proj2 (Forall_map _ _ _)). eapply Forall_impl; [|exact C3]. intros l. apply prop_leaf_fits.
      + intros y Hy. apply (prop_ac (/ 10 ^ 8) eps_ok 1 m y W); auto; [|now apply member_pos].
        eapply Forall_impl; [|exact (xs_states m y M Hy)]. intros [|sc ch rep K w]; [trivial|]. intros [HK H]. split; [assumption|].
        intros v Hv. destruct (H v Hv) as [kk ->]. discriminate.
    - injection E as <-. split; [apply sim_refl|]. split; [now apply unsigned_monotone|]. auto. }
  pose proof (sim_wf _ _ S W) as Wq. pose proof (sim_un _ _ S _ U) as Uq. pose proof (sim_al _ _ S A) as Aq.
  assert (pos_ok 1 q 0%nat 0%nat 0%nat) as Pq.
  { pose proof (member_pos m M) as [P1 P2 P3]. constructor; [unfold sfeat in *; now rewrite <- (sim_shape _ _ S)|unfold schan in *; now rewrite <- (sim_shape _ _ S)|assumption]. }
  repeat (split; [assumption|]). split; [|assumption].
  apply (sums_over_assignments D dom vars (fun y => fun_of q y 0%nat 0%nat 0%nat) HD x0).
  apply (fun_normalised 1 D q Wq Aq Uq Mo F 0%nat 0%nat 0%nat Pq vars x0 ND). intros v. rewrite (member_vars m M v). unfold vars_of, nthq. now rewrite (sim_fts _ _ S).
Qed.

Lemma tables_spec m k lt lq : member m -> inner_product_matrix m m = Ok k -> tables xs m = Ok (lt, lq) ->
  (forall y, (y < length xs)%nat -> pr (lt y) = fun_of m (nth y xs x0) 0%nat 0%nat 0%nat ^ 2) /\
  bsum (length xs) (fun y => pr (lq y)) = 1 /\
  (forall y, (y < length xs)%nat -> pr (lq y) = 0 -> pr (lt y) = 0) /\
  bsum (length xs) (fun y => pr (lt y)) = k 0%nat 0%nat 0%nat 0%nat.
Proof.
  intros M Ek E. unfold tables in E. destruct (proposal_of m) as [q|] eqn:Eq; [|discriminate]. cbn [bind] in E.
  destruct (mapR (fun x => seval x m) xs) as [ts|] eqn:Et; [|discriminate]. cbn [bind] in E.
  destruct (mapR (fun x => mll x q) xs) as [qs|] eqn:Eqs; [|discriminate]. cbn [bind] in E. injection E as <- <-.
  destruct (proposal_facts m q k M Ek Eq) as (Wq & Uq & Mo & US & Pq & Sq & AC).
  pose proof (member_wf m M) as W. pose proof (mb_comp _ M) as [[B U] C2 C3 C4 C5 C6 C7].
  apply mapR_ok in Et, Eqs.
  assert (forall y, (y < length xs)%nat -> In (nth y xs x0) xs) as Hin by (intros; now apply nth_In).
  assert (forall y, (y < length xs)%nat -> pr (ldouble (fst (nth y ts (fun _ _ _ => (NInf, 0%Z)) 0%nat 0%nat 0%nat))) = fun_of m (nth y xs x0) 0%nat 0%nat 0%nat ^ 2) as T.
  { intros y Hy. rewrite pr_double. pose proof (Forall2_nth _ _ _ y x0 (fun _ _ _ => (NInf, 0%Z)) Et Hy) as Ey.
    pose proof (seval_abs 1 (nth y xs x0) m W U C5 C6 C7 (xs_cols2 m _ M (Hin y Hy)) _ Ey 0%nat 0%nat 0%nat (member_pos m M)) as X.
    apply (f_equal (fun z => z ^ 2)) in X. cbv beta in X. rewrite pow2_abs in X. exact X. }
  assert (forall y, (y < length xs)%nat -> pr (nth y qs (fun _ _ _ => NInf) 0%nat 0%nat 0%nat) = fun_of q (nth y xs x0) 0%nat 0%nat 0%nat) as Q.
  { intros y Hy. pose proof (Forall2_nth _ _ _ y x0 (fun _ _ _ => NInf) Eqs Hy) as Ey.
    apply (mll_val 1 (nth y xs x0) q Wq Uq US _ Ey 0%nat 0%nat 0%nat Pq). }
  split; [exact T|]. split; [|split].
  - rewrite <- Sq, (lsum_bsum _ xs x0). apply bsum_ext. exact Q.
  - intros y Hy Z. rewrite Q in Z by assumption. rewrite T by assumption. rewrite (AC _ (Hin y Hy) Z). ring.
  - rewrite (bsum_ext _ _ _ T), <- (lsum_bsum (fun y => fun_of m y 0%nat 0%nat 0%nat ^ 2) xs x0).
    apply (sums_over_assignments D dom vars _ HD x0). apply (self_ip 1 D m k 0%nat 0%nat 0%nat vars x0 (mb_comp _ M) Ek (member_pos m M) ND (member_vars m M)).
Qed.

(** one acceptance bound for all components *)
Lemma common_beta cs : Forall member cs -> exists beta, 0 < beta <= 1 /\
  forall m, In m cs -> forall lt lq k, tables xs m = Ok (lt, lq) -> inner_product_matrix m m = Ok k -> tiny <= k 0%nat 0%nat 0%nat 0%nat ->
  forall y, (y < length xs)%nat -> beta * (pr (lt y) / k 0%nat 0%nat 0%nat 0%nat) <= pr (lq y).
Proof.
  induction 1 as [|m cs M H IH]; [exists 1; split; [lra|intros m []]|].
  destruct IH as (b & Hb & HI).
  assert (exists b', 0 < b' <= 1 /\ forall lt lq k, tables xs m = Ok (lt, lq) -> inner_product_matrix m m = Ok k -> tiny <= k 0%nat 0%nat 0%nat 0%nat ->
    forall y, (y < length xs)%nat -> b' * (pr (lt y) / k 0%nat 0%nat 0%nat 0%nat) <= pr (lq y)) as (b' & Hb' & HI').
  { destruct (tables xs m) as [[lt lq]|] eqn:Et; [|exists 1; split; [lra|intros; discriminate]].
    destruct (inner_product_matrix m m) as [k|] eqn:Ek; [|exists 1; split; [lra|intros; discriminate]].
    destruct (Rle_dec tiny (k 0%nat 0%nat 0%nat 0%nat)) as [HZ|HZ]; [|exists 1; split; [lra|intros lt' lq' k' E1 E2; injection E2 as <-; contradiction]].
    destruct (tables_spec m k lt lq M Ek Et) as (_ & _ & AC & _). pose proof tiny_pos.
    destruct (exists_beta (length xs) (fun y => pr (lt y) / k 0%nat 0%nat 0%nat 0%nat) (fun y => pr (lq y))) as (b' & Hb' & Hy).
    - intros y. apply Rmult_le_pos; [apply pr_nonneg|left; apply Rinv_0_lt_compat; lra].
    - intros y. apply pr_nonneg.
    - intros y Hy Z. rewrite (AC y Hy Z). unfold Rdiv. ring.
    - exists b'. split; [assumption|]. intros lt' lq' k' E1 E2. injection E1 as <- <-. injection E2 as <-. auto. }
  exists (Rmin b b'). split; [split; [apply Rmin_glb_lt; lra|eapply Rle_trans; [apply Rmin_l|lra]]|].
  intros m' Hm' lt lq k Et Ek HZ y Hy.
  assert (0 <= pr (lt y) / k 0%nat 0%nat 0%nat 0%nat) as Pos.
  { pose proof tiny_pos. apply Rmult_le_pos; [apply pr_nonneg|left; apply Rinv_0_lt_compat; lra]. }
  destruct Hm' as [<-|Hm'].
  - apply Rle_trans with (b' * (pr (lt y) / k 0%nat 0%nat 0%nat 0%nat)); [apply Rmult_le_compat_r; [assumption|apply Rmin_r]|eauto].
  - apply Rle_trans with (b * (pr (lt y) / k 0%nat 0%nat 0%nat 0%nat)); [apply Rmult_le_compat_r; [assumption|apply Rmin_l]|eapply HI; eauto].
Qed.

(** choosing among [n] sub-computations *)
Lemma mix_bound (n : nat) (w u v : nat -> R) e : (forall i, (i < n)%nat -> 0 <= w i) -> bsum n w = 1 ->
  (forall i, (i < n)%nat -> Rabs (u i - v i) <= e) -> Rabs (bsum n (fun i => w i * u i) - bsum n (fun i => w i * v i)) <= e.
Proof.
  intros Hw H1 H.
  replace (bsum n (fun i => w i * u i) - bsum n (fun i => w i * v i)) with (bsum n (fun i => w i * (u i - v i))).
  2:{ transitivity (bsum n (fun i => w i * u i) + (-1) * bsum n (fun i => w i * v i)); [|ring]. rewrite <- bsum_scal, <- bsum_plus. apply bsum_ext. intros; ring. }
  apply Rabs_le.
  assert (forall i, (i < n)%nat -> - e * w i <= w i * (u i - v i) <= e * w i) as B.
  { intros i Hi. specialize (Hw i Hi). specialize (H i Hi). unfold Rabs in H; destruct (Rcase_abs _); nra. }
  split.
  - replace (- e) with (bsum n (fun i => - e * w i)) by (rewrite bsum_scal, H1; ring). apply bsum_le. intros i Hi. now apply B.
  - replace e with (bsum n (fun i => e * w i)) by (rewrite bsum_scal, H1; ring). apply bsum_le. intros i Hi. now apply B.
Qed.

Lemma socs_sample_converges cs Z : cs <> [] -> Forall member cs -> partition cs = Ok Z ->
  Forall (fun m => forall k, inner_product_matrix m m = Ok k -> tiny <= k 0%nat 0%nat 0%nat 0%nat) cs ->
  exists beta, 0 < beta <= 1 /\
  forall burn steps p, socs_sample xs cs burn steps = Ok p ->
  forall g lo hi, (forall y, In y xs -> lo <= g y <= hi) ->
  exists u, expects D p (fun i => g (nth i xs x0)) u /\
    Rabs (u - lsumR (map (fun y => squares cs y 0%nat 0%nat 0%nat / Z 0%nat 0%nat 0%nat * g y) xs)) <= (1 - beta) ^ (burn + steps) * (hi - lo).
Proof.
  intros Hne HM EZ HZ. destruct (common_beta cs HM) as (beta & Hb & HB). exists beta. split; [assumption|].
  intros burn steps p E g lo hi Hg. unfold socs_sample in E.
  destruct (forallb _ cs); [|discriminate]. destruct (mapR log_self_ip cs) as [zs|] eqn:Ezs; [|discriminate]. cbn [bind] in E.
  destruct (Nat.eqb steps 0); [discriminate|]. destruct (mapR (tables xs) cs) as [tabs|] eqn:Etab; [|discriminate]. cbn [bind] in E. injection E as <-.
  apply mapR_ok in Ezs, Etab. rewrite Forall_forall in HM, HZ.
  unfold partition in EZ. destruct (mapR (fun c => inner_product_matrix c c) cs) as [ks|] eqn:Eks; [|discriminate]. cbn [bind] in EZ. injection EZ as <-.
  apply mapR_ok in Eks. pose proof tiny_pos as Tp.
  destruct cs as [|m0 cs']; [congruence|]. set (cs := m0 :: cs') in *. set (n := length cs). assert (0 < n)%nat as Hn by (cbn; lia).
  set (kk := fun i => nth i ks (fun _ _ _ _ => 0) 0%nat 0%nat 0%nat 0%nat).
  assert (forall i, (i < n)%nat -> In (nth i cs m0) cs) as Hin by (intros; now apply nth_In).
  assert (forall i, (i < n)%nat -> inner_product_matrix (nth i cs m0) (nth i cs m0) = Ok (nth i ks (fun _ _ _ _ => 0))) as Kk.
  { intros i Hi. exact (Forall2_nth _ _ _ i m0 (fun _ _ _ _ => 0) Eks Hi). }
  assert (forall i, (i < n)%nat -> tiny <= kk i) as Kp by (intros i Hi; exact (HZ _ (Hin i Hi) _ (Kk i Hi))).
  assert (lsumR (map (fun k : T4 => k 0%nat 0%nat 0%nat 0%nat) ks) = bsum n kk) as EZ.
  { rewrite (lsum_bsum _ ks (fun _ _ _ _ => 0)). unfold n. rewrite (Forall2_len _ _ _ Eks). reflexivity. }
  assert (0 < bsum n kk) as Zp by (apply bsum_pos; [assumption|intros i Hi; specialize (Kp i Hi); lra]).
  assert (forall i, (i < n)%nat -> nth i zs 0 = ln (kk i)) as Zl.
  { intros i Hi. pose proof (Forall2_nth _ _ _ i m0 0 Ezs Hi) as X. unfold log_self_ip in X. destruct (_ && _ && _)%bool; [|discriminate].
    rewrite (Kk i Hi) in X. cbn [bind] in X. injection X as X. rewrite <- X. specialize (Kp i Hi). fold (kk i).
    rewrite (Rmax_left (kk i) 0) by lra. now rewrite Rmax_left by lra. }
  assert (forall i, (i < n)%nat -> softmax n (fun j => nth j zs 0) i = kk i / bsum n kk) as Sm.
  { intros i Hi. unfold softmax. rewrite (Zl i Hi), exp_ln by (specialize (Kp i Hi); lra). f_equal.
    apply bsum_ext. intros j Hj. rewrite (Zl j Hj), exp_ln; [reflexivity|specialize (Kp j Hj); lra]. }
  set (tab := fun i => nth i tabs (fun _ : nat => NInf, fun _ : nat => NInf)).
  assert (forall i, (i < n)%nat -> tables xs (nth i cs m0) = Ok (fst (tab i), snd (tab i))) as Tt.
  { intros i Hi. pose proof (Forall2_nth _ _ _ i m0 (fun _ : nat => NInf, fun _ : nat => NInf) Etab Hi) as X. unfold tab. rewrite X. now destruct (nth i tabs _). }
  set (G := fun i => g (nth i xs x0)).
  assert (forall i, exists u, (i < n)%nat ->
     expects D (mh_chain (length xs) (fst (tab i)) (snd (tab i)) (burn + steps)) G u /\
     Rabs (u - pi_mean (length xs) (fst (tab i)) (kk i) G) <= (1 - beta) ^ (burn + steps) * (hi - lo)) as Ch.
  { intros i. destruct (lt_dec i n) as [Hi|Hi]; [|exists 0; intros; contradiction].
    destruct (tables_spec (nth i cs m0) _ _ _ (HM _ (Hin i Hi)) (Kk i Hi) (Tt i Hi)) as (T1 & T2 & T3 & T4).
    destruct (chain_bound (length xs) (fst (tab i)) (snd (tab i)) T2 (kk i) beta ltac:(specialize (Kp i Hi); lra) T4 Hb
      (HB _ (Hin i Hi) _ _ _ (Tt i Hi) (Kk i Hi) (Kp i Hi)) D G lo hi (burn + steps)) as (u & U1 & U2).
    - intros y Hy _. apply Hg. now apply nth_In.
    - exists u. auto. }
  apply choice_fin in Ch. destruct Ch as (u & Hu).
  exists (bsum n (fun i => kk i / bsum n kk * u i)). split.
  - cbn [expects]. exists u. split; [intros i Hi _; now apply Hu|]. apply bsum_ext. intros i Hi. fold n. now rewrite Sm.
  - rewrite EZ.
    replace (lsumR (map (fun y => squares cs y 0%nat 0%nat 0%nat / bsum n kk * g y) xs))
      with (bsum n (fun i => kk i / bsum n kk * pi_mean (length xs) (fst (tab i)) (kk i) G)).
    + apply mix_bound.
      * intros i Hi. specialize (Kp i Hi). apply Rmult_le_pos; [lra|left; now apply Rinv_0_lt_compat].
      * rewrite bsum_div. field. lra.
      * intros i Hi. now apply Hu.
    + rewrite (lsum_bsum _ xs x0).
      transitivity (bsum n (fun i => bsum (length xs) (fun y => fun_of (nth i cs m0) (nth y xs x0) 0%nat 0%nat 0%nat ^ 2 / bsum n kk * G y))).
      * apply bsum_ext. intros i Hi. unfold pi_mean. rewrite <- bsum_scal. apply bsum_ext. intros y Hy.
        destruct (tables_spec (nth i cs m0) _ _ _ (HM _ (Hin i Hi)) (Kk i Hi) (Tt i Hi)) as (T1 & _). rewrite T1 by assumption.
        specialize (Kp i Hi). field. lra.
      * rewrite bsum_swap. apply bsum_ext. intros y Hy. rewrite bsum_scal_r. fold (G y). f_equal. rewrite bsum_div. f_equal.
        unfold squares. now rewrite (lsum_bsum _ cs m0).
Qed.
End comp.
