(** Piecewise linear leaves: initialize and the layout of log_likelihood. *)
From Coq Require Import List Arith ZArith Bool Reals Lra Lia.
From Verif Require Import Base ScopeModel CircuitModel Integral LeafModel SampleModel HistModel HistProofs HistEdges PwlModel PwlSpec PwlProofs PwlTop PwlMain.
Import ListNotations.
Local Open Scope R_scope.

Lemma blocks_nth {A} (d : A) (g : nat -> list A) L n i j : (forall k, length (g k) = L) -> (i < n)%nat -> (j < L)%nat ->
  nth (i * L + j) (flat_map g (seq 0 n)) d = nth j (g i) d.
Proof.
  intros HL Hi Hj. assert (forall s n i, (i < n)%nat -> nth (i * L + j) (flat_map g (seq s n)) d = nth j (g (s + i)%nat) d) as K.
  { clear n i Hi. intros s n. revert s. induction n as [|n IH]; intros s i Hi; [lia|]. cbn [seq flat_map]. destruct i as [|i].
    - rewrite app_nth1 by (rewrite HL; lia). now rewrite Nat.add_0_r.
    - rewrite app_nth2 by (rewrite HL; lia). rewrite HL. replace (S i * L + j - L)%nat with (i * L + j)%nat by lia.
      rewrite IH by lia. f_equal. f_equal. lia. }
  exact (K 0%nat n i Hi).
Qed.
Lemma blocks_len {A} (g : nat -> list A) L n : (forall k, length (g k) = L) -> length (flat_map g (seq 0 n)) = (n * L)%nat.
Proof.
  intros HL. assert (forall s, length (flat_map g (seq s n)) = (n * L)%nat) as K; [|apply K].
  induction n as [|n IH]; intros s; [reflexivity|]. cbn [seq flat_map]. rewrite app_length, HL, IH. lia.
Qed.
Lemma flat_len {A} F P L (t : nat -> nat -> nat -> A) : length (flat F P L t) = (F * (P * L))%nat.
Proof.
  unfold flat. apply blocks_len. intros k. apply blocks_len. intros r. now rewrite map_length, seq_length.
Qed.
Lemma flat_nth {A} (d : A) F P L t f r l : (f < F)%nat -> (r < P)%nat -> (l < L)%nat ->
  nth ((f * P + r) * L + l) (flat F P L t) d = t r l f.
Proof.
  intros Hf Hr Hl. replace ((f * P + r) * L + l)%nat with (f * (P * L) + (r * L + l))%nat by ring. unfold flat.
  assert (r * L + l < P * L)%nat as B by nia.
  rewrite blocks_nth by (try assumption; intros k; apply blocks_len; intros; now rewrite map_length, seq_length).
  rewrite blocks_nth by (try assumption; intros k; now rewrite map_length, seq_length).
  rewrite (nth_indep _ d (t r 0%nat f)) by (now rewrite map_length, seq_length).
  rewrite (map_nth (fun l => t r l f)), seq_nth by exact Hl. reflexivity.
Qed.
Lemma loglik_entry m ds t x : w_fit m = Some (ds, t) -> exists M g, p_loglik m x = Ok g /\
  forall f l r, (f < length (query (w_scope m)))%nat -> (l < w_ch m)%nat -> (r < w_rep m)%nat ->
    g f l r = match x (nth f (query (w_scope m)) 0%nat) with None => Fin 0 | Some a => p_log_prob M (t r l f) a end.
Proof.
  intros E. set (F := length (query (w_scope m))). exists (max_points (flat F (w_rep m) (w_ch m) t)). unfold p_loglik. rewrite E. eexists. split; [reflexivity|].
  intros f l r Hf Hl Hr. cbv beta. fold F. destruct (x (nth f (query (w_scope m)) 0%nat)) as [a|] eqn:EX; [|reflexivity].
  unfold unflat. set (h := fun '(w, f) => _).
  assert (((f * w_rep m + r) * w_ch m + l < F * (w_rep m * w_ch m))%nat) as B.
  { replace ((f * w_rep m + r) * w_ch m + l)%nat with (f * (w_rep m * w_ch m) + (r * w_ch m + l))%nat by ring.
    assert (r * w_ch m + l < w_rep m * w_ch m)%nat by nia. nia. }
  rewrite (nth_indep _ NInf (h (mkPw [] [], 0%nat))) by (rewrite map_length, combine_length, !flat_len, Nat.min_id; exact B).
  rewrite (map_nth h), combine_nth by (now rewrite !flat_len). rewrite !flat_nth by assumption. unfold h. now rewrite EX.
Qed.

Lemma forallb_seq f n : forallb f (seq 0 n) = true <-> forall i, (i < n)%nat -> f i = true.
Proof.
  rewrite forallb_forall. split; intros H i Hi; [apply H, in_seq; lia|apply in_seq in Hi; apply H; lia].
Qed.
Lemma all_ok3_ok {A} (d : A) n1 n2 n3 t : (forall i j k, (i < n1)%nat -> (j < n2)%nat -> (k < n3)%nat -> exists a, t i j k = Ok a) ->
  exists u, all_ok3 d n1 n2 n3 t = Ok u /\ forall i j k, (i < n1)%nat -> (j < n2)%nat -> (k < n3)%nat -> t i j k = Ok (u i j k).
Proof.
  intros H. unfold all_ok3. match goal with |- context [forallb ?f ?l] => replace (forallb f l) with true end.
  - eexists. split; [reflexivity|]. intros i j k Hi Hj Hk. cbv beta. destruct (H i j k Hi Hj Hk) as (a & ->). reflexivity.
  - symmetry. apply forallb_seq. intros i Hi. apply forallb_seq. intros j Hj. apply forallb_seq. intros k Hk.
    destruct (H i j k Hi Hj Hk) as (a & ->). reflexivity.
Qed.
Lemma cluster_members data assign c f : cluster_from 0 data assign c f = members data assign c f.
Proof.
  unfold members. assert (forall s data pre, length pre = s ->
    cluster_from s data assign c f = map (fun i => nth f (nth i (pre ++ data) []) 0) (filter (fun i => Nat.eqb (assign i) c) (seq s (length data)))) as K.
  { clear data. intros s data. revert s. induction data as [|row data IH]; intros s pre Hs; [reflexivity|].
    cbn [cluster_from length seq filter]. specialize (IH (S s) (pre ++ [row])). rewrite IH by (rewrite app_length; cbn; lia).
    assert (nth s (pre ++ row :: data) [] = row) as E by (rewrite app_nth2 by lia; rewrite Hs, Nat.sub_diag; reflexivity).
    rewrite <- app_assoc. cbn [app]. destruct (Nat.eqb (assign s) c); [|reflexivity]. cbn [app map]. now rewrite E. }
  exact (K 0%nat data [] eq_refl).
Qed.
Lemma fits_ok alpha d l : 0 <= alpha -> fits d l -> exists w, fit_feature alpha d l = Ok w /\ pw_ok w /\ polygon_area w = 1.
Proof.
  intros Ha H. destruct d as [vs|mn mx].
  - destruct H as (NE & SO & H). destruct (fit_discrete vs NE SO alpha l Ha H) as (w & W1 & W2 & W3 & _). eauto.
  - destruct l as [|x l0].
    + destruct H as [H|H]; [congruence|]. destruct (fit_continuous_empty alpha mn mx Ha) as (w & W1 & W2 & W3 & _); [|eauto].
      replace (py_or mn 0) with (match mn with Some a => a | None => 0 end); [exact H|].
      destruct mn as [a|]; [|reflexivity]. unfold py_or. destruct (Req_EM_T a 0) as [E|E]; [exact E|reflexivity].
    + destruct (fit_continuous alpha mn mx (x :: l0) Ha) as (es & w & Z & _ & W1 & W2 & W3 & _); [discriminate|]. eauto.
Qed.
Definition assigned (m : pwl) (km : nat -> nat -> nat) (r : nat) : nat -> nat := if (1 <? w_ch m)%nat then km r else fun _ => 0%nat.
Lemma initialize_ok m km width data ds : 0 <= w_alpha m ->
  width = length (query (w_scope m)) -> length ds = length (query (w_scope m)) ->
  (forall r c f, (r < w_rep m)%nat -> (c < w_ch m)%nat -> (f < length (query (w_scope m)))%nat -> fits (nth f ds dom0) (members data (assigned m km r) c f)) ->
  exists t, initialize m km width data ds = Ok (mkPwl (w_scope m) (w_ch m) (w_rep m) (w_alpha m) (Some (ds, t))) /\
    forall r c f, (r < w_rep m)%nat -> (c < w_ch m)%nat -> (f < length (query (w_scope m)))%nat ->
      fit_feature (w_alpha m) (nth f ds dom0) (members data (assigned m km r) c f) = Ok (t r c f) /\ pw_ok (t r c f) /\ polygon_area (t r c f) = 1.
Proof.
  intros Ha -> L H. unfold initialize. rewrite L, Nat.eqb_refl. cbn [negb].
  destruct (all_ok3_ok (mkPw [] []) (w_rep m) (w_ch m) (length (query (w_scope m)))
    (fun r c f => fit_feature (w_alpha m) (nth f ds dom0) (cluster_from 0 data (assigned m km r) c f))) as (u & U1 & U2).
  { intros r c f Hr Hc Hf. cbv beta. rewrite cluster_members. destruct (fits_ok (w_alpha m) _ _ Ha (H r c f Hr Hc Hf)) as (w & W & _). eauto. }
  exists u. split; [exact (f_equal (fun o => bind o _) U1)|]. intros r c f Hr Hc Hf. specialize (U2 r c f Hr Hc Hf). cbv beta in U2. rewrite cluster_members in U2.
  split; [exact U2|]. destruct (fits_ok (w_alpha m) _ _ Ha (H r c f Hr Hc Hf)) as (w & W & W2). rewrite W in U2. injection U2 as <-. exact W2.
Qed.
