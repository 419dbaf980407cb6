(** Union-find and Kruskal's loop (MstModel) compute the greedy forest. *)
From Coq Require Import List Arith Bool Reals Lia Permutation Sorted.
From Verif Require Import Base CltSpec CltPrim PromModel PromGraph PromParts MstModel MstSpec.
Import ListNotations.
Local Open Scope nat_scope.

Inductive rootof (p : nat -> nat) : nat -> nat -> Prop :=
| ro_here x : p x = x -> rootof p x x
| ro_up x r : p x <> x -> rootof p (p x) r -> rootof p x r.
Lemma rootof_fix p x r : rootof p x r -> p r = r.
Proof. induction 1; auto. Qed.
Lemma rootof_det p x r : rootof p x r -> forall s, rootof p x s -> r = s.
Proof. induction 1 as [x H|x r H _ IH]; intros s Hs; inversion Hs; subst; try congruence; auto. Qed.

Definition ranked (p rk : nat -> nat) : Prop := forall x, p x <> x -> rk x < rk (p x).
Lemma rootof_ex p rk B : ranked p rk -> (forall x, rk x <= B) -> forall k x, B - rk x <= k -> exists r, rootof p x r.
Proof.
  intros HR HB. induction k as [|k IH]; intros x Hk; (destruct (Nat.eq_dec (p x) x) as [E|E]; [exists x; now constructor|]); specialize (HR x E); pose proof (HB (p x)); pose proof (HB x).
  - lia.
  - destruct (IH (p x)) as [r Hr]; [lia|]. exists r. now apply ro_up.
Qed.
Lemma set1_same f x v : set1 f x v x = v.
Proof. unfold set1. now rewrite Nat.eqb_refl. Qed.
Lemma set1_other f x v y : y <> x -> set1 f x v y = f y.
Proof. unfold set1. intros H. destruct (Nat.eqb_spec y x); [contradiction|reflexivity]. Qed.

Lemma halve_ranked p rk x : ranked p rk -> p x <> x -> ranked (set1 p x (p (p x))) rk.
Proof.
  intros HR E y Hy. destruct (Nat.eq_dec y x) as [->|N].
  - rewrite set1_same in *. pose proof (HR x E). destruct (Nat.eq_dec (p (p x)) (p x)) as [F|F]; [now rewrite F|]. specialize (HR _ F). lia.
  - rewrite set1_other in * by exact N. now apply HR.
Qed.
Lemma halve_root p rk x : ranked p rk -> p x <> x -> forall y s, rootof p y s -> rootof (set1 p x (p (p x))) y s.
Proof.
  intros HR E. induction 1 as [y H|y r H K IH].
  - constructor. rewrite set1_other; [exact H|congruence].
  - destruct (Nat.eq_dec y x) as [->|N].
    + assert (F : p (p x) <> x).
      { intros F. pose proof (HR x E). assert (p (p x) <> p x) by congruence. pose proof (HR _ H1). rewrite F in *. lia. }
      apply ro_up; rewrite set1_same; [exact F|]. destruct (Nat.eq_dec (p (p x)) (p x)) as [G|G]; [revert IH; rewrite G; auto|].
      inversion IH as [z Hz|z r' Hz Kz]; subst; rewrite set1_other in * by congruence; [contradiction|exact Kz].
    + apply ro_up; rewrite set1_other by exact N; assumption.
Qed.
Lemma find_spec rk B : forall fuel p x, ranked p rk -> (forall y, rk y <= B) -> B - rk x < fuel ->
  exists r p', uf_find fuel p x = Ok (r, p') /\ rootof p x r /\ ranked p' rk /\ (forall y s, rootof p y s -> rootof p' y s).
Proof.
  induction fuel as [|k IH]; intros p x HR HB Hf; [lia|]. cbn [uf_find]. destruct (Nat.eqb_spec (p x) x) as [E|E].
  - exists x, p. split; [reflexivity|]. split; [now constructor|]. split; auto.
  - cbn zeta. rewrite set1_same. pose proof (halve_ranked p rk x HR E) as HR'. pose proof (halve_root p rk x HR E) as HT.
    assert (LX : rk x < rk (p (p x))).
    { pose proof (HR x E). destruct (Nat.eq_dec (p (p x)) (p x)) as [F|F]; [now rewrite F|]. specialize (HR _ F). lia. }
    destruct (IH (set1 p x (p (p x))) (p (p x)) HR' HB) as (r & p' & EF & HO & HRR & HP).
    { pose proof (HB (p (p x))). lia. }
    exists r, p'. split; [exact EF|]. split; [|split; [exact HRR|intros y s Hy; now apply HP, HT]].
    destruct (rootof_ex p rk B HR HB (B - rk x) x (le_n _)) as [s Hs]. pose proof (HT _ _ Hs) as Hs'.
    inversion Hs' as [z Hz|z r' Hz Kz]; subst; rewrite set1_same in *.
    + rewrite Hz in LX. lia.
    + rewrite (rootof_det _ _ _ HO _ Kz). exact Hs.
Qed.

Record uf_ok (u : uf) (E : list (nat * nat)) : Prop := {
  k_rk : ranked (u_parent u) (u_rank u);
  k_bd : forall x, u_rank u x <= length E;
  k_ln : forall x y r s, rootof (u_parent u) x r -> rootof (u_parent u) y s -> (r = s <-> linked E x y) }.

Lemma linked_nil u v : linked [] u v <-> u = v.
Proof. split; [induction 1 as [|u v w _ IH [[]|[]]]; reflexivity|intros ->; apply l_refl]. Qed.
Lemma create_ok : uf_ok uf_create [].
Proof.
  split; cbn; [intros x H; now elim H|auto|]. intros x y r s Hr Hs. rewrite linked_nil.
  inversion Hr; inversion Hs; subst; try congruence; reflexivity.
Qed.
Lemma root_total u E x : uf_ok u E -> exists r, rootof (u_parent u) x r.
Proof. intros [HR HB _]. eapply rootof_ex; eauto. Qed.

(** joining two roots *)
Lemma join_root p ra rb : p ra = ra -> p rb = rb -> ra <> rb -> forall y s, rootof p y s -> rootof (set1 p ra rb) y (if Nat.eqb s ra then rb else s).
Proof.
  intros Ha Hb N. induction 1 as [y H|y r H K IH].
  - destruct (Nat.eqb_spec y ra) as [->|M].
    + apply ro_up; rewrite set1_same; [congruence|]. constructor. rewrite set1_other by congruence. exact Hb.
    + constructor. now rewrite set1_other.
  - assert (y <> ra) by congruence. apply ro_up; rewrite set1_other by assumption; assumption.
Qed.
Lemma join_ok p rk rk' E ra rb a b : ranked p rk -> (forall x, rk x <= length E) ->
  (forall x y r s, rootof p x r -> rootof p y s -> (r = s <-> linked E x y)) ->
  rootof p a ra -> rootof p b rb -> ra <> rb ->
  (forall x, x <> rb -> rk' x = rk x) -> rk rb <= rk' rb <= S (length E) -> rk ra < rk' rb ->
  forall E', (forall x y, linked E' x y <-> linked (E ++ [(a, b)]) x y) -> length E' = S (length E) ->
  uf_ok (mkUF (set1 p ra rb) rk') E'.
Proof.
  intros HR HB HL Ra Rb N K1 K2 K3 E' HE' HLen. pose proof (rootof_fix _ _ _ Ra) as Fa. pose proof (rootof_fix _ _ _ Rb) as Fb. split; cbn [u_parent u_rank].
  - intros x Hx. destruct (Nat.eq_dec x ra) as [->|Nx].
    + rewrite set1_same in *. rewrite (K1 ra) by congruence. exact K3.
    + rewrite set1_other in * by exact Nx. specialize (HR x Hx). assert (x <> rb) by congruence. rewrite (K1 x H).
      destruct (Nat.eq_dec (p x) rb) as [G|G]; [rewrite G in *; lia|now rewrite (K1 _ G)].
  - intros x. rewrite HLen. destruct (Nat.eq_dec x rb) as [->|Nx]; [lia|]. rewrite (K1 x Nx). specialize (HB x). lia.
  - intros x y r s Hr Hs. rewrite HE', linked_snoc.
    destruct (rootof_ex p rk (length E) HR HB _ x (le_n _)) as [r0 Hr0]. destruct (rootof_ex p rk (length E) HR HB _ y (le_n _)) as [s0 Hs0].
    pose proof (join_root p ra rb Fa Fb N _ _ Hr0) as Gr. pose proof (join_root p ra rb Fa Fb N _ _ Hs0) as Gs.
    rewrite (rootof_det _ _ _ Hr _ Gr), (rootof_det _ _ _ Hs _ Gs).
    rewrite <- (HL x y r0 s0 Hr0 Hs0), <- (HL x a r0 ra Hr0 Ra), <- (HL b y rb s0 Rb Hs0), <- (HL x b r0 rb Hr0 Rb), <- (HL a y ra s0 Ra Hs0).
    destruct (Nat.eqb_spec r0 ra), (Nat.eqb_spec s0 ra); subst; intuition congruence.
Qed.

Lemma union_spec n u E a b : uf_ok u E -> S (length E) <= n -> exists bu, uf_union n u a b = Ok bu /\
  (fst bu = false /\ linked E a b /\ uf_ok (snd bu) E \/ fst bu = true /\ ~ linked E a b /\ uf_ok (snd bu) (E ++ [(a, b)])).
Proof.
  intros U Hn. destruct U as [HR HB HL]. unfold uf_union.
  destruct (find_spec (u_rank u) (length E) n (u_parent u) a HR HB) as (ra & p1 & E1 & R1 & HR1 & T1); [lia|]. rewrite E1. cbn [bind snd fst].
  destruct (find_spec (u_rank u) (length E) n p1 b HR1 HB) as (rb & p2 & E2 & R2 & HR2 & T2); [lia|]. rewrite E2. cbn [bind snd fst].
  pose proof (T2 _ _ (T1 _ _ R1)) as Ra. pose proof (T2 _ _ R2) as Rb.
  assert (HL2 : forall x y r s, rootof p2 x r -> rootof p2 y s -> (r = s <-> linked E x y)).
  { intros x y r s Hr Hs. destruct (rootof_ex _ _ _ HR HB _ x (le_n _)) as [r0 Hr0]. destruct (rootof_ex _ _ _ HR HB _ y (le_n _)) as [s0 Hs0].
    rewrite (rootof_det _ _ _ Hr _ (T2 _ _ (T1 _ _ Hr0))), (rootof_det _ _ _ Hs _ (T2 _ _ (T1 _ _ Hs0))). now apply HL. }
  pose proof (HL2 _ _ _ _ Ra Rb) as L.
  destruct (Nat.eqb_spec ra rb) as [E3|E3].
  { eexists. split; [reflexivity|]. left. cbn. split; [reflexivity|]. split; [now apply L|]. split; cbn; assumption. }
  assert (NL : ~ linked E a b) by (rewrite <- L; exact E3).
  assert (LEN : length (E ++ [(a, b)]) = S (length E)) by (rewrite app_length; cbn; lia).
  assert (SW : forall x y, linked (E ++ [(a, b)]) x y <-> linked (E ++ [(b, a)]) x y) by (intros; rewrite !linked_snoc; tauto).
  destruct (Nat.ltb_spec (u_rank u ra) (u_rank u rb)) as [C|C]; [|destruct (Nat.ltb_spec (u_rank u rb) (u_rank u ra)) as [C'|C']].
  - eexists. split; [reflexivity|]. right. cbn. split; [reflexivity|]. split; [exact NL|].
    eapply (join_ok p2 (u_rank u) (u_rank u) E ra rb a b); eauto; try (intros; reflexivity); pose proof (HB rb); lia.
  - eexists. split; [reflexivity|]. right. cbn. split; [reflexivity|]. split; [exact NL|].
    eapply (join_ok p2 (u_rank u) (u_rank u) E rb ra b a); eauto; try (intros; reflexivity); pose proof (HB ra); lia.
  - eexists. split; [reflexivity|]. right. cbn. split; [reflexivity|]. split; [exact NL|].
    eapply (join_ok p2 (u_rank u) _ E rb ra b a); eauto; rewrite ?set1_same; try (intros; now apply set1_other); pose proof (HB ra); lia.
Qed.

(** ** The greedy forest *)
Fixpoint grow (Q acc : list (nat * nat)) : list (nat * nat) :=
  match Q with
  | [] => acc
  | e :: r => if Nat.eqb (labels acc (fst e)) (labels acc (snd e)) then grow r acc else grow r (acc ++ [e])
  end.
Lemma grow_app Q1 : forall Q2 acc, grow (Q1 ++ Q2) acc = grow Q2 (grow Q1 acc).
Proof. induction Q1 as [|e Q1 IH]; intros; [reflexivity|]. cbn [app grow]. destruct (Nat.eqb _ _); apply IH. Qed.
Lemma grow_ext Q : forall acc, exists l, grow Q acc = acc ++ l /\ forall e, In e l -> In e Q.
Proof.
  induction Q as [|e Q IH]; intros acc; [exists []; split; [now rewrite app_nil_r|auto]|]. cbn [grow]. destruct (Nat.eqb _ _).
  - destruct (IH acc) as (l & E & I). exists l. split; [exact E|]. intros; right; auto.
  - destruct (IH (acc ++ [e])) as (l & E & I). exists (e :: l). rewrite E, <- app_assoc. split; [reflexivity|]. intros x [<-|Hx]; [now left|right; auto].
Qed.
Lemma grow_linked Q : forall acc u v, linked (grow Q acc) u v <-> linked (acc ++ Q) u v.
Proof.
  induction Q as [|[a b] Q IH]; intros acc u v; [rewrite app_nil_r; reflexivity|]. cbn [grow fst snd].
  assert (AS : acc ++ (a, b) :: Q = (acc ++ [(a, b)]) ++ Q) by (rewrite <- app_assoc; reflexivity).
  destruct (Nat.eqb_spec (labels acc a) (labels acc b)) as [K|K]; rewrite IH, AS; [|reflexivity].
  split; apply linked_map; intros x y H; apply in_app_or in H; destruct H as [H|H].
  - apply linked_edge. left. apply in_or_app. left. apply in_or_app. now left.
  - apply linked_edge. left. apply in_or_app. now right.
  - apply in_app_or in H. destruct H as [H|[H|[]]]; [apply linked_edge; left; apply in_or_app; now left|].
    injection H as <- <-. apply labels_linked in K. revert K. apply linked_incl. intros; apply in_or_app; now left.
  - apply linked_edge. left. apply in_or_app. now right.
Qed.
Lemma grow_forest d Q : forall acc, bounded d (acc ++ Q) -> forest d acc -> forest d (grow Q acc).
Proof.
  induction Q as [|[a b] Q IH]; intros acc HB HF; [exact HF|]. cbn [grow fst snd].
  destruct (Nat.eqb_spec (labels acc a) (labels acc b)) as [K|K].
  - apply IH; [|exact HF]. intros e He. apply HB. apply in_app_or in He. apply in_or_app. destruct He; [now left|right; now right].
  - apply IH; [now rewrite <- app_assoc|]. destruct (HB (a, b)) as [Ha Hb]; [apply in_or_app; right; now left|].
    pose proof (cnt_merge d acc a b Ha Hb K). unfold forest in *. rewrite app_length. cbn [length]. lia.
Qed.
Lemma forest_nil d : forest d [].
Proof. unfold forest. rewrite cnt_nil. cbn. lia. Qed.
Lemma cnt_pos d E : 0 < d -> 0 < cnt d (labels E).
Proof.
  intros H. unfold cnt. assert (I : In 0 (filter (fun v => Nat.eqb (labels E v) v) (seq 0 d))).
  { apply filter_In. split; [apply in_seq; lia|]. apply Nat.eqb_eq. pose proof (labels_le E 0). lia. }
  destruct (filter _ _); [contradiction|cbn; lia].
Qed.
Lemma grow_full d Q : forall acc, 0 < d -> bounded d Q -> cnt d (labels acc) = 1 -> grow Q acc = acc.
Proof.
  induction Q as [|e Q IH]; intros acc Hd HB H1; [reflexivity|]. cbn [grow]. pose proof (proj1 (cnt_one d acc Hd) H1) as L.
  destruct (HB e) as [Ha Hb]; [now left|]. pose proof (L _ _ Ha Hb) as K. apply labels_linked in K. rewrite K, Nat.eqb_refl. apply IH; auto. intros x Hx. apply HB. now right.
Qed.
(** the loop of kruskal_mst_complete *)
Lemma kloop_grow n : forall Q u acc, 0 < n -> uf_ok u acc -> bounded n (acc ++ Q) -> forest n acc -> (Q <> [] -> S (length acc) < n) ->
  kloop n Q u acc = Ok (grow Q acc).
Proof.
  induction Q as [|[a b] Q IH]; intros u acc Hn U HB HF HL; [reflexivity|]. cbn [kloop fst snd]. specialize (HL ltac:(discriminate)).
  destruct (union_spec n u acc a b U) as (bu & EU & HU); [lia|]. rewrite EU. cbn [bind].
  assert (HB' : bounded n (acc ++ Q)) by (intros e He; apply HB; apply in_app_or in He; apply in_or_app; destruct He; [now left|right; now right]).
  destruct HU as [(F & L & U')|(F & L & U')]; rewrite F; cbn [grow fst snd].
  - apply labels_linked in L. rewrite L, Nat.eqb_refl. apply IH; auto.
  - rewrite <- labels_linked in L. apply Nat.eqb_neq in L. rewrite L. cbn zeta. apply Nat.eqb_neq in L.
    assert (HF2 : forest n (acc ++ [(a, b)])).
    { destruct (HB (a, b)) as [Ha Hb]; [apply in_or_app; right; now left|]. pose proof (cnt_merge n acc a b Ha Hb L). unfold forest in *. rewrite app_length. cbn [length]. lia. }
    assert (HB2 : bounded n ((acc ++ [(a, b)]) ++ Q)) by (rewrite <- app_assoc; exact HB).
    destruct (Nat.eqb_spec (length (acc ++ [(a, b)])) (n - 1)) as [C|C].
    + rewrite (grow_full n); [reflexivity|exact Hn|intros e He; apply HB; apply in_or_app; right; now right|]. unfold forest in HF2. lia.
    + apply IH; auto. intros _. unfold forest in HF2. pose proof (cnt_pos n (acc ++ [(a, b)]) Hn). lia.
Qed.

(** ** Spanning trees *)
Lemma cnt_incl d E E' : (forall e, In e E -> In e E') -> cnt d (labels E') <= cnt d (labels E).
Proof.
  intros HI. unfold cnt. apply NoDup_incl_length; [apply NoDup_filter, seq_NoDup|]. intros v Hv. apply filter_In in Hv. destruct Hv as [H1 H2]. apply filter_In. split; [exact H1|].
  apply Nat.eqb_eq in H2. apply Nat.eqb_eq. apply Nat.le_antisymm; [apply labels_le|].
  pose proof (linked_incl E E' HI v (labels E v) (labels_self E v)) as L. apply labels_linked in L. rewrite H2 in L. rewrite L at 1. apply labels_le.
Qed.
Lemma spanning_bounded n T : spanning n T -> bounded n T.
Proof. intros (H & _) [u v] He. cbn. now apply H. Qed.
Lemma spanning_forest n T : spanning n T -> forest n T.
Proof.
  intros (H & L & S). unfold forest. assert (0 < n) by lia. rewrite (proj2 (cnt_one n T H0)); [lia|]. exact L.
Qed.
Lemma forest_spanning n T : 0 < n -> bounded n T -> forest n T -> (forall u v, u < n -> v < n -> linked T u v) -> spanning n T.
Proof.
  intros Hn HB HF L. split; [intros u v He; apply (HB (u, v) He)|]. split; [exact L|]. pose proof (proj2 (cnt_one n T Hn) L). unfold forest in HF. lia.
Qed.
Lemma forest_NoDup n T : bounded n T -> forest n T -> NoDup T.
Proof.
  intros HB HF. induction T as [|e T IH]; [constructor|].
  assert (HT : forest n T).
  { apply (forest_sub n (e :: T) T [e] HB HF). apply Permutation_sym, (Permutation_app_comm T [e]). }
  constructor; [|apply IH; [intros x Hx; apply HB; now right|exact HT]].
  intros I. pose proof (cnt_incl n (e :: T) T ltac:(intros x [<-|Hx]; auto)). unfold forest in *. cbn [length] in HF. lia.
Qed.
Lemma spanning_NoDup n T : spanning n T -> NoDup T.
Proof. intros H. apply (forest_NoDup n); [now apply spanning_bounded|now apply spanning_forest]. Qed.
