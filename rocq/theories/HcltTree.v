(** Every spanning tree has an orientation away from node 0 (used by HcltProofs). *)
From Coq Require Import List Arith ZArith Bool Reals Lia Lra Permutation Classical.
From Verif Require Import Base CltSpec MstModel MstSpec MstUf MstKruskal MstTop.
Import ListNotations.

Lemma finite_choice (n : nat) (P : nat -> nat -> Prop) : (forall i, i < n -> exists y, P i y) -> exists g, forall i, i < n -> P i (g i).
Proof.
  induction n as [|n IH]; intros H; [exists (fun _ => 0); intros; lia|]. destruct IH as (g & Hg); [intros; apply H; lia|]. destruct (H n ltac:(lia)) as (y & Hy).
  exists (fun i => if Nat.eqb i n then y else g i). intros i Hi. destruct (Nat.eqb_spec i n) as [->|N]; [exact Hy|apply Hg; lia].
Qed.
Lemma least (P : nat -> Prop) : forall k, P k -> exists m, P m /\ forall j, P j -> m <= j.
Proof.
  induction k as [k IH] using (well_founded_induction lt_wf). intros Hk. destruct (classic (exists j, P j /\ j < k)) as [(j & Hj & L)|N]; [now apply (IH j)|].
  exists k. split; [exact Hk|]. intros j Hj. destruct (le_lt_dec k j); [assumption|]. elim N. now exists j.
Qed.

Section Orient.
Context (f : nat) (T : list (nat * nat)) (HT : tree f T) (Hf : 0 < f).
Definition edge (u v : nat) : Prop := In (u, v) T \/ In (v, u) T.
Lemma edge_lt u v : edge u v -> u < f /\ v < f /\ u <> v.
Proof. destruct HT as [[HB _] HC]. intros [H|H]; pose proof (HB _ _ H) as [? ?]; pose proof (HC _ _ H); lia. Qed.

Inductive walk : nat -> nat -> Prop :=
| w_0 : walk 0 0
| w_S k u v : walk k u -> edge u v -> walk (S k) v.
Lemma walk_of_link a v : linked T a v -> a = 0 -> exists k, walk k v.
Proof. induction 1 as [u|u v w L IH E]; intros ->; [exists 0; constructor|]. destruct (IH eq_refl) as (k & Hk). exists (S k). eapply w_S; [exact Hk|exact E]. Qed.

(** a parent and a depth for every node *)
Lemma orientation : exists par dep, dep 0 = 0 /\
  (forall v, 0 < v < f -> par v < f /\ edge (par v) v /\ dep v = S (dep (par v))) /\
  (forall u v, edge u v -> (0 < u /\ par u = v) \/ (0 < v /\ par v = u)).
Proof.
  destruct (finite_choice f (fun v d => walk d v /\ forall k, walk k v -> d <= k)) as (dep & HD).
  { intros v Hv. destruct HT as [[_ [HL _]] _]. destruct (walk_of_link 0 v (HL 0 v Hf Hv) eq_refl) as (k & Hk). now apply (least (fun k => walk k v) k). }
  assert (D0 : dep 0 = 0). { destruct (HD 0 Hf) as [_ M]. specialize (M 0 w_0). lia. }
  destruct (finite_choice f (fun v p => 0 < v -> p < f /\ edge p v /\ dep v = S (dep p))) as (par & HP).
  { intros v Hv. destruct (Nat.eq_dec v 0) as [->|N]; [exists 0; lia|]. destruct (HD v Hv) as [W M]. inversion W as [EQ1 EQ2|k u v' W' E EQ1 EQ2]; subst; [lia|].
    exists u. intros _. pose proof (edge_lt u v E) as (Hu & _ & _). split; [exact Hu|]. split; [exact E|].
    destruct (HD u Hu) as [Wu Mu]. pose proof (Mu k W'). pose proof (M (S (dep u)) (w_S _ _ _ Wu E)). lia. }
  exists par, dep. split; [exact D0|]. assert (HP' : forall v, 0 < v < f -> par v < f /\ edge (par v) v /\ dep v = S (dep (par v))) by (intros v Hv; apply HP; lia).
  split; [exact HP'|].
  set (L := map (fun v => canon (v, par v)) (seq 1 (f - 1))).
  assert (CE : forall a b, edge a b -> In (canon (a, b)) T).
  { intros a b E. destruct HT as [_ HC]. unfold canon. cbn [fst snd]. destruct E as [E|E]; pose proof (HC _ _ E); destruct (Nat.leb_spec a b); try assumption; lia. }
  assert (CI : forall a b c d, canon (a, b) = canon (c, d) -> (a = c /\ b = d) \/ (a = d /\ b = c)).
  { intros a b c d. unfold canon. cbn [fst snd]. destruct (Nat.leb a b), (Nat.leb c d); intros E; injection E as -> ->; auto. }
  assert (ND : NoDup L).
  { unfold L. assert (G : forall l, (forall v, In v l -> 0 < v < f) -> NoDup l -> NoDup (map (fun v => canon (v, par v)) l)).
    { induction l as [|v l IH]; intros HB N; [constructor|]. inversion N as [|? ? NI N']; subst. cbn [map]. constructor; [|apply IH; [intros; apply HB; now right|exact N']].
      intros HI. apply in_map_iff in HI. destruct HI as (u & E & Hu). pose proof (HP' v (HB v (or_introl eq_refl))) as (_ & _ & D1). pose proof (HP' u (HB u (or_intror Hu))) as (_ & _ & D2).
      destruct (CI _ _ _ _ E) as [[-> _]|[E1 E2]]; [contradiction|]. rewrite E2 in D2. rewrite <- E1 in D1. lia. }
    apply G; [intros v Hv; apply in_seq in Hv; lia|apply seq_NoDup]. }
  assert (IN : incl L T).
  { intros e He. unfold L in He. apply in_map_iff in He. destruct He as (v & <- & Hv). apply in_seq in Hv. destruct (HP' v ltac:(lia)) as (_ & E & _). apply CE. unfold edge in *. tauto. }
  assert (LT : length T <= length L). { unfold L. rewrite map_length, seq_length. destruct HT as [[_ [_ H]] _]. lia. }
  pose proof (NoDup_length_incl ND LT IN) as SUP.
  intros u v E. pose proof (SUP _ (CE u v E)) as He. unfold L in He. apply in_map_iff in He. destruct He as (w & EW & Hw). apply in_seq in Hw.
  destruct (CI _ _ _ _ EW) as [[-> E2]|[-> E2]]; [left|right]; (split; [lia|exact E2]).
Qed.
End Orient.

(** *** A tree with parents [par] and depths [dep] *)
Section Rooted.
Context (f : nat) (T : list (nat * nat)) (HT : tree f T) (Hf : 0 < f) (par dep : nat -> nat)
  (D0 : dep 0 = 0) (HP : forall v, 0 < v < f -> par v < f /\ edge T (par v) v /\ dep v = S (dep (par v)))
  (HE : forall u v, edge T u v -> (0 < u /\ par u = v) \/ (0 < v /\ par v = u)).
Fixpoint anc (k v : nat) : nat := match k with O => v | S j => anc j (par v) end.
Lemma anc_dep k : forall v, v < f -> k <= dep v -> anc k v < f /\ dep (anc k v) = dep v - k.
Proof.
  induction k as [|k IH]; intros v Hv Hk; cbn [anc]; [lia|]. assert (0 < v) by (destruct v; [rewrite D0 in Hk; lia|lia]). destruct (HP v ltac:(lia)) as (Hp & _ & E).
  destruct (IH (par v) Hp ltac:(lia)) as [A B]. split; [exact A|]. rewrite B. lia.
Qed.
Lemma dep_lt v : v < f -> dep v < f.
Proof.
  intros Hv. set (L := map (fun k => anc k v) (seq 0 (S (dep v)))).
  assert (ND : NoDup L).
  { unfold L. assert (G : forall l, (forall k, In k l -> k <= dep v) -> NoDup l -> NoDup (map (fun k => anc k v) l)).
    { induction l as [|k l IH]; intros HB N; [constructor|]. inversion N as [|? ? NI N']; subst. cbn [map]. constructor; [|apply IH; [intros; apply HB; now right|exact N']].
      intros HI. apply in_map_iff in HI. destruct HI as (j & E & Hj). pose proof (HB k (or_introl eq_refl)). pose proof (HB j (or_intror Hj)).
      destruct (anc_dep k v Hv ltac:(lia)) as [_ A]. destruct (anc_dep j v Hv ltac:(lia)) as [_ B]. rewrite E in B. assert (j = k) by lia. subst. contradiction. }
    apply G; [intros k Hk; apply in_seq in Hk; lia|apply seq_NoDup]. }
  assert (IN : incl L (seq 0 f)).
  { intros e He. unfold L in He. apply in_map_iff in He. destruct He as (k & <- & Hk). apply in_seq in Hk. apply in_seq. destruct (anc_dep k v Hv ltac:(lia)). lia. }
  pose proof (NoDup_incl_length ND IN) as LE. unfold L in LE. rewrite map_length, !seq_length in LE. lia.
Qed.
Lemma dep_0 v : v < f -> dep v = 0 -> v = 0.
Proof. intros Hv E. destruct (Nat.eq_dec v 0) as [|N]; [assumption|]. destruct (HP v ltac:(lia)) as (_ & _ & E2). lia. Qed.
End Rooted.
