(** Proofs about the compatibility check. *)
From Coq Require Import List Arith Bool Lia.
From Verif Require Import Base ScopeModel ScopeProofs CircuitModel LeafModel SignedModel CompatModel CompatSpec.
Import ListNotations.

Fixpoint cmod_ind' (P : cmod -> Prop) (H : forall i k s sh l, Forall P l -> P (CM i k s sh l)) (m : cmod) : P m :=
  match m with
  | CM i k s sh l => H i k s sh l ((fix go (l : list cmod) : Forall P l :=
      match l with [] => Forall_nil P | c :: r => Forall_cons c (cmod_ind' P H c) (go r) end) l)
  end.

Fixpoint go_pairs (l l' : list cmod) (v : visited) : result visited :=
  match l, l' with
  | c :: r, d :: r' => bind (check_pair c d v) (fun v => go_pairs r r' v)
  | _, _ => Ok v
  end.
Lemma check_eq a b v : check_pair a b v =
  if seen v a b then Ok v else if local_ok a b then if looks_inside (ckind a) then go_pairs (cins a) (cins b) ((cid a, cid b) :: v) else Ok ((cid a, cid b) :: v) else Err.
Proof. destruct a. reflexivity. Qed.

Lemma type_eq a b : local_ok a b = true -> ckind a = ckind b.
Proof.
  unfold local_ok. rewrite !andb_true_iff. intros ((((H & _) & _) & H1) & _).
  destruct (ckind a), (ckind b); cbn in H; try discriminate; auto; rewrite ?andb_true_iff, ?Nat.eqb_eq in *; try (f_equal; tauto).
  destruct H1 as [-> H1]. unfold nats_eqb in H1. destruct list_eq_dec; [now subst|discriminate].
Qed.
Lemma local_ok_iff a b : local_ok a b = true <-> alike a b /\ length (children a) = length (children b).
Proof.
  split.
  - intros H. pose proof (type_eq _ _ H) as E. unfold local_ok in H. rewrite !andb_true_iff, Nat.eqb_eq in H. destruct H as ((((_ & H1) & H2) & _) & H3).
    apply scope_eqb_spec in H1. split; [|exact H3]. split; [exact E|]. destruct H1 as [H1 H1']. split; [exact H1|split; [exact H1'|]].
    unfold shape_eqb in H2. rewrite !andb_true_iff, !Nat.eqb_eq in H2. destruct (cshape a), (cshape b). cbn in H2. destruct H2 as [[-> ->] ->]. reflexivity.
  - intros ((E & S1 & S2 & E') & L). unfold local_ok. rewrite !andb_true_iff. repeat split.
    + rewrite E. destruct (ckind b); cbn; auto; apply Nat.eqb_refl.
    + apply scope_eqb_spec. now split.
    + rewrite E'. unfold shape_eqb. now rewrite !Nat.eqb_refl.
    + unfold children in L. rewrite E in *. destruct (ckind b); auto; rewrite ?andb_true_iff, ?Nat.eqb_eq; auto.
      split; [reflexivity|]. unfold nats_eqb. destruct list_eq_dec; congruence.
    + now apply Nat.eqb_eq.
Qed.

Lemma at_cons m i p : at_path m (i :: p) = match nth_error (children m) i with Some c => at_path c p | None => None end.
Proof. cbn [at_path]. unfold children. destruct (ckind m); reflexivity. Qed.

Lemma F2_nth {A B} (P : A -> B -> Prop) l l' : Forall2 P l l' <-> length l = length l' /\ forall i x y, nth_error l i = Some x -> nth_error l' i = Some y -> P x y.
Proof.
  split.
  - intros H. induction H as [|a b l l' H H' [IH1 IH2]]; [split; [reflexivity|intros [|i]; discriminate]|].
    split; [cbn; lia|]. intros [|i] x y; cbn; [intros [= <-] [= <-]; exact H|apply IH2].
  - revert l'. induction l as [|a l IH]; intros [|b l'] [L H]; try discriminate; constructor; [apply (H 0); reflexivity|].
    apply IH. split; [cbn in L; lia|]. intros i x y. apply (H (S i)).
Qed.

Lemma skeleton_step a b : same_skeleton a b <-> alike a b /\ Forall2 same_skeleton (children a) (children b).
Proof.
  split.
  - intros H. split; [exact (H [])|]. apply F2_nth. split.
    + destruct (Nat.lt_trichotomy (length (children a)) (length (children b))) as [L|[L|L]]; auto; exfalso.
      * specialize (H [length (children a)]). rewrite !at_cons in H. rewrite (proj2 (nth_error_None _ _)) in H by lia.
        destruct (nth_error (children b) (length (children a))) eqn:E; [exact H|]. apply nth_error_None in E. lia.
      * specialize (H [length (children b)]). rewrite !at_cons in H. rewrite (proj2 (nth_error_None (children b) _)) in H by lia.
        destruct (nth_error (children a) (length (children b))) eqn:E; [exact H|]. apply nth_error_None in E. lia.
    + intros i x y Ex Ey p. specialize (H (i :: p)). now rewrite !at_cons, Ex, Ey in H.
  - intros [H F] [|i p]; [exact H|]. rewrite !at_cons. apply F2_nth in F. destruct F as [L F].
    destruct (nth_error (children a) i) as [x|] eqn:Ex.
    + destruct (nth_error (children b) i) as [y|] eqn:Ey; [exact (F i x y Ex Ey p)|]. apply nth_error_None in Ey.
      assert (i < length (children a)) by (apply nth_error_Some; congruence). lia.
    + destruct (nth_error (children b) i) as [y|] eqn:Ey; [|exact I]. apply nth_error_None in Ex.
      assert (i < length (children b)) by (apply nth_error_Some; congruence). lia.
Qed.

Lemma seen_In v a b : seen v a b = true <-> In (cid a, cid b) v.
Proof.
  unfold seen. rewrite existsb_exists. split.
  - intros ([x y] & H & E). apply andb_true_iff in E. rewrite !Nat.eqb_eq in E. cbn in E. destruct E as [-> ->]. exact H.
  - intros H. eexists. split; [exact H|]. cbn. now rewrite !Nat.eqb_refl.
Qed.

Lemma below_trans a b c : below a b -> below b c -> below a c.
Proof. intros H. induction H as [|m c' d Hi H IH]; auto. intros K. eapply below_in; [exact Hi|]. auto. Qed.
Lemma children_in m c : In c (children m) -> In c (cins m).
Proof. unfold children. destruct (looks_inside (ckind m)); [auto|intros []]. Qed.
Lemma below_child m n c : below m n -> In c (children n) -> below m c.
Proof. intros H Hc. apply (below_trans m n c H). eapply below_in; [apply children_in, Hc|constructor]. Qed.

Section dfs.
Variables A B : cmod.
Hypothesis IDS : ids_ok A B.

Definition good (v : visited) (p : nat * nat) : Prop := exists x y, below A x /\ below B y /\ p = (cid x, cid y) /\
  local_ok x y = true /\ Forall2 (fun c d => In (cid c, cid d) v) (children x) (children y).
Lemma good_mono v v' p : incl v v' -> good v p -> good v' p.
Proof using. intros H (x & y & Bx & By & -> & L & F). exists x, y. repeat split; auto. clear - F H. induction F; constructor; auto. Qed.

Definition dfs_ok (v v' : visited) : Prop := incl v v' /\ forall p, In p v' -> In p v \/ good v' p.
Lemma dfs_refl v : dfs_ok v v.
Proof using. split; [apply incl_refl|auto]. Qed.
Lemma dfs_trans v w u : dfs_ok v w -> dfs_ok w u -> dfs_ok v u.
Proof using.
  intros [I1 H1] [I2 H2]. split; [eapply incl_tran; eauto|]. intros p Hp. destruct (H2 p Hp) as [Hw|G]; [|auto].
  destruct (H1 p Hw) as [Hv|G]; [auto|]. right. now apply (good_mono w u).
Qed.

Lemma go_dfs l : Forall (fun a => forall b v v', below A a -> below B b -> check_pair a b v = Ok v' -> dfs_ok v v' /\ In (cid a, cid b) v') l ->
  forall l' v v', length l = length l' -> (forall c, In c l -> below A c) -> (forall d, In d l' -> below B d) -> go_pairs l l' v = Ok v' ->
  dfs_ok v v' /\ Forall2 (fun c d => In (cid c, cid d) v') l l'.
Proof using.
  induction l as [|c l IH]; intros F [|d l'] v v' L HA HB E; try discriminate.
  - injection E as <-. split; [apply dfs_refl|constructor].
  - cbn [go_pairs] in E. destruct (check_pair c d v) as [w|] eqn:E1; [|discriminate]. cbn [bind] in E. inversion F as [|? ? F1 F2]; subst.
    destruct (F1 d v w) as [D1 I1]; auto; [apply HA; now left|apply HB; now left|].
    destruct (IH F2 l' w v') as [D2 I2]; auto; [intros x Hx; apply HA; now right|intros x Hx; apply HB; now right|].
    split; [eapply dfs_trans; eauto|]. constructor; [apply D2, I1|exact I2].
Qed.

Lemma check_dfs a : forall b v v', below A a -> below B b -> check_pair a b v = Ok v' -> dfs_ok v v' /\ In (cid a, cid b) v'.
Proof using.
  induction a as [i k s sh l IH] using cmod_ind'. set (a := CM i k s sh l). intros b v v' Ba Bb E. rewrite check_eq in E.
  destruct (seen v a b) eqn:S. { injection E as <-. split; [apply dfs_refl|now apply seen_In]. }
  destruct (local_ok a b) eqn:L; [|discriminate]. pose proof (type_eq _ _ L) as TY. pose proof (proj1 (local_ok_iff _ _) L) as [_ LEN].
  assert (STEP : forall v', dfs_ok ((cid a, cid b) :: v) v' -> Forall2 (fun c d => In (cid c, cid d) v') (children a) (children b) ->
    dfs_ok v v' /\ In (cid a, cid b) v').
  { clear v' E. intros v' [I1 H1] F. split; [|apply I1; now left]. split; [intros p Hp; apply I1; now right|].
    intros p Hp. destruct (H1 p Hp) as [[<-|Hv]|G]; auto. right. exists a, b. auto. }
  destruct (looks_inside (ckind a)) eqn:LI.
  - assert (children a = l) as CA by (unfold children; rewrite LI; reflexivity). assert (children b = cins b) as CB by (unfold children; rewrite <- TY, LI; reflexivity).
    rewrite CA, CB in *. apply (go_dfs l) in E; auto.
    + destruct E as [D F]. now apply STEP.
    + intros c Hc. apply (below_child A a c Ba). now rewrite CA.
    + intros d Hd. apply (below_child B b d Bb). now rewrite CB.
  - injection E as <-. apply STEP; [apply dfs_refl|].
    assert (children a = []) as CA by (unfold children; now rewrite LI). assert (children b = []) as CB by (unfold children; now rewrite <- TY, LI). rewrite CA, CB. constructor.
Qed.

Lemma visited_skeleton v : (forall p, In p v -> good v p) -> forall x y, below A x -> below B y -> In (cid x, cid y) v -> same_skeleton x y.
Proof using IDS.
  intros G x. induction x as [i k s sh l IH] using cmod_ind'. set (x := CM i k s sh l). intros y Bx By H.
  destruct (G _ H) as (x' & y' & Bx' & By' & E & L & F). injection E as E1 E2. destruct IDS as [IA IB].
  assert (x' = x) as -> by (apply IA; auto). assert (y' = y) as -> by (apply IB; auto).
  apply skeleton_step. split; [apply local_ok_iff in L; apply L|].
  assert (forall c, In c (children x) -> forall d, below A c -> below B d -> In (cid c, cid d) v -> same_skeleton c d) as IH'.
  { intros c Hc. rewrite Forall_forall in IH. apply IH. apply (children_in x), Hc. }
  assert (HA : forall c, In c (children x) -> below A c) by (intros c; now apply below_child).
  assert (HB : forall d, In d (children y) -> below B d) by (intros d; now apply below_child).
  clear IH. clearbody x. clear - F IH' HA HB. revert F IH' HA HB. generalize (children x) (children y). intros l l' F. induction F as [|c d l l' H F IHF]; intros IH' HA HB; constructor.
  - apply IH'; auto; [now left|apply HA; now left|apply HB; now left].
  - apply IHF; [intros c' Hc'; apply IH'; now right|intros c' Hc'; apply HA; now right|intros c' Hc'; apply HB; now right].
Qed.

Lemma check_sound v' : check_pair A B [] = Ok v' -> same_skeleton A B.
Proof using IDS.
  intros E. apply check_dfs in E; try constructor. destruct E as [[_ H] HI]. apply (visited_skeleton v'); try constructor; auto.
  intros p Hp. destruct (H p Hp) as [[]|]; auto.
Qed.
End dfs.

Lemma check_complete a : forall b v, same_skeleton a b -> exists v', check_pair a b v = Ok v'.
Proof.
  induction a as [i k s sh l IH] using cmod_ind'. set (a := CM i k s sh l). intros b v H. rewrite check_eq. apply skeleton_step in H. destruct H as [AL F].
  destruct (seen v a b); [eauto|]. pose proof (proj1 (F2_nth _ _ _) F) as [LEN _].
  rewrite (proj2 (local_ok_iff a b)) by auto. destruct (looks_inside (ckind a)) eqn:LI; [|eauto].
  assert (children a = l) as CA by (unfold children; rewrite LI; reflexivity). assert (children b = cins b) as CB by (unfold children; rewrite <- (proj1 AL), LI; reflexivity).
  rewrite CA, CB in F. change (cins a) with l. clear - IH F. generalize ((cid a, cid b) :: v) as w. induction F as [|c d l l' H F IHF]; intros w; cbn [go_pairs]; [eauto|].
  inversion IH as [|? ? I1 I2]; subst. destruct (I1 d w H) as (w' & ->). cbn [bind]. now apply IHF.
Qed.

Lemma check_iff a b : ids_ok a b -> (exists v, check_pair a b [] = Ok v) <-> same_skeleton a b.
Proof. intros IDS. split; [intros (v & E); exact (check_sound a b IDS v E)|intros H; now apply check_complete]. Qed.

Lemma skeleton_refl a : same_skeleton a a.
Proof. intros p. destruct (at_path a p); [|exact I]. repeat split; auto. Qed.
Lemma skeleton_sym a b : same_skeleton a b -> same_skeleton b a.
Proof.
  intros H p. specialize (H p). destruct (at_path a p), (at_path b p); auto. destruct H as (E & S1 & S2 & E'). split; [auto|]. split; [intros v; symmetry; apply S1|].
  split; [intros v; symmetry; apply S2|auto].
Qed.
Lemma skeleton_trans a b c : same_skeleton a b -> same_skeleton b c -> same_skeleton a c.
Proof.
  intros H K p. specialize (H p). specialize (K p). destruct (at_path a p), (at_path b p), (at_path c p); auto; try contradiction.
  destruct H as (E & S1 & S2 & E'), K as (F & T1 & T2 & F'). split; [congruence|]. split; [intros v; rewrite S1; apply T1|]. split; [intros v; rewrite S2; apply T2|congruence].
Qed.
