From Coq Require Import List Arith Bool Lia.
From Verif Require Import Base ReplaceModel.
Import ListNotations.

(** [C.n] is defined in the body of [C] as a plain function *)
Definition owns (w : world) (c n : nat) : Prop := exists f, w_own w c n = Some (Plain f).
(** the class a function's qualname names, if there is one, defines it *)
Definition ordinary (w : world) (m : func) : Prop :=
  forall q c, f_qual m = Some q -> w_class w (f_mod m) q = Some c -> owns w c (f_name m).
(** every class comes first in its own mro *)
Definition head_mro (w : world) : Prop := forall c, exists l, w_mro w c = c :: l.
Definition good (w : world) : Prop :=
  head_mro w /\ forall c n a, w_own w c n = Some a -> ordinary w (unraw a).
(** the functions a program mentions *)
Fixpoint funcs (k : cmd) : list func :=
  match k with
  | Skip | Throw | Read _ _ => []
  | Seq a b => funcs a ++ funcs b
  | With r f body => (match r with Captured m => [m] | Attr _ _ => [] end) ++ f :: funcs body
  end.

Definition same_world (w w' : world) : Prop :=
  (forall c n, w_own w c n = w_own w' c n) /\ w_mro w = w_mro w' /\ w_class w = w_class w'.
Lemma same_world_refl w : same_world w w.
Proof. split; auto. Qed.
Lemma same_world_trans a b c : same_world a b -> same_world b c -> same_world a c.
Proof. intros (A & B & C) (D & E & F). split; [intros; now rewrite A|split; congruence]. Qed.
Lemma lookup_in_ext w w' l n : same_world w w' -> lookup_in w l n = lookup_in w' l n.
Proof. intros (H & _). induction l as [|c l IH]; cbn; [reflexivity|]. rewrite H, IH. reflexivity. Qed.
Lemma getattr_ext w w' c n : same_world w w' -> getattr w c n = getattr w' c n.
Proof. intros H. unfold getattr. rewrite (lookup_in_ext w w') by assumption. destruct H as (_ & -> & _). reflexivity. Qed.
Lemma extract_ext w w' m : w_class w = w_class w' -> extract w m = extract w' m.
Proof. intros H. unfold extract. now rewrite H. Qed.

Lemma getattr_own w c n f : head_mro w -> w_own w c n = Some (Plain f) -> getattr w c n = Some f.
Proof. intros M H. unfold getattr. destruct (M c) as [l ->]. cbn. now rewrite H. Qed.


Lemma extract_ok w m c n : extract w m = Ok (c, n) <-> exists q, f_qual m = Some q /\ w_class w (f_mod m) q = Some c /\ n = f_name m.
Proof.
  unfold extract. destruct (f_qual m) as [q|]; [|split; [discriminate|intros (q & H & _); discriminate H]].
  destruct (w_class w (f_mod m) q) as [d|] eqn:E.
  - split; [intros H; injection H as -> <-; exists q; auto|]. intros (q' & H & H2 & ->). injection H as <-. rewrite E in H2. congruence.
  - split; [discriminate|]. intros (q' & H & H2 & _). injection H as <-. rewrite E in H2. discriminate.
Qed.
Lemma ordinary_owns w m c n : ordinary w m -> extract w m = Ok (c, n) -> owns w c n.
Proof. intros H E. apply extract_ok in E. destruct E as (q & A & B & ->). eapply H; eauto. Qed.
Lemma ordinary_cached w f : ordinary w f -> ordinary w (cached f).
Proof. intros H. exact H. Qed.
Lemma owns_setattr w c n f c' n' : owns w c' n' -> owns (setattr w c n f) c' n'.
Proof.
  intros [g H]. unfold owns. cbn. destruct (_ && _); [exists f; reflexivity|exists g; assumption].
Qed.
Lemma ordinary_setattr w c n f m : ordinary w m -> ordinary (setattr w c n f) m.
Proof. intros H q d E1 E2. apply owns_setattr. eapply H; eauto. Qed.
Lemma good_setattr w c n f : good w -> ordinary w f -> good (setattr w c n f).
Proof.
  intros [M G] F. split; [exact M|]. intros c' n' a. cbn. destruct (_ && _).
  - intros H. injection H as <-. cbn. now apply ordinary_setattr.
  - intros H. apply ordinary_setattr. eapply G; eauto.
Qed.
Lemma lookup_ord w l n a : (forall c n a, w_own w c n = Some a -> ordinary w (unraw a)) -> lookup_in w l n = Some a -> ordinary w (unraw a).
Proof. intros G. induction l as [|c l IH]; cbn; [discriminate|]. destruct (w_own w c n) eqn:E; [intros H; injection H as <-; eauto|auto]. Qed.
Lemma resolve_ord w r f m body : good w -> (forall g, In g (funcs (With r f body)) -> ordinary w g) -> resolve w r = Ok m -> ordinary w m.
Proof.
  intros [_ G] H. destruct r as [g|c n]; cbn.
  - intros E. injection E as <-. apply H. cbn. auto.
  - unfold getattr. destruct (lookup_in w (w_mro w c) n) as [a|] eqn:E; cbn; [|discriminate].
    intros K. injection K as <-. eapply lookup_ord; eauto.
Qed.

Lemma exec_restores k : forall w, good w -> (forall g, In g (funcs k) -> ordinary w g) -> same_world (after k w) w.
Proof.
  unfold after. induction k as [| |a IHa b IHb|c n|r f body IH]; intros w G F; cbn [exec]; try apply same_world_refl.
  - specialize (IHa w G (fun g Hg => F g (proj2 (in_app_iff _ _ _) (or_introl Hg)))).
    destruct (exec a w) as [[w1 l1] e1]. cbn in IHa. destruct e1; [exact IHa|].
    assert (good w1 /\ forall g, ordinary w g -> ordinary w1 g) as [G1 O1].
    { destruct IHa as (A & B & C). assert (forall g, ordinary w g -> ordinary w1 g) as O.
      { intros g H q d E1 E2. rewrite C in E2. destruct (H q d E1 E2) as [x Hx]. exists x. now rewrite A. }
      split; [|exact O]. destruct G as [M G]. split; [intros c; rewrite B; apply M|].
      intros c n x Hx. rewrite A in Hx. apply O. eapply G; eauto. }
    specialize (IHb w1 G1 (fun g Hg => O1 g (F g (proj2 (in_app_iff _ _ _) (or_intror Hg))))).
    destruct (exec b w1) as [[w2 l2] e2]. cbn in *. eapply same_world_trans; eauto.
  - destruct (resolve w r) as [m|] eqn:ER; [|apply same_world_refl].
    destruct (extract w m) as [[c n]|] eqn:EX; [|apply same_world_refl].
    assert (owns w c n) as [orig HO] by (apply (ordinary_owns w m); [eapply resolve_ord; eauto|assumption]).
    rewrite (getattr_own w c n orig) by (auto; apply G).
    set (new := if f_wrapped orig then cached f else f).
    assert (ordinary w f) as Of by (apply F; cbn; apply in_app_iff; right; cbn; auto).
    assert (ordinary w new) as On by (unfold new; destruct (f_wrapped orig); auto).
    assert (forall g, In g (funcs body) -> ordinary (setattr w c n new) g) as Fb.
    { intros g Hg. apply ordinary_setattr, F. cbn. apply in_app_iff. right. cbn. auto. }
    specialize (IH (setattr w c n new) (good_setattr w c n new G On) Fb).
    destruct (exec body (setattr w c n new)) as [[w1 l] e]. cbn in *.
    destruct IH as (A & B & C). split; [|split; [exact B|exact C]].
    intros c' n'. cbn. destruct (Nat.eqb c' c && Nat.eqb n' n) eqn:E.
    + apply andb_true_iff in E. destruct E as [E1 E2]. apply Nat.eqb_eq in E1, E2. subst. now rewrite HO.
    + rewrite A. cbn. rewrite E. reflexivity.
Qed.

Lemma lookup_setattr w l c n f n' : n' <> n -> lookup_in (setattr w c n f) l n' = lookup_in w l n'.
Proof.
  intros H. induction l as [|x l IH]; cbn; [reflexivity|]. apply Nat.eqb_neq in H. rewrite H, andb_false_r, IH. reflexivity.
Qed.
Lemma lookup_target w l1 l2 c n f : (forall b, In b l1 -> w_own w b n = None) ->
  lookup_in (setattr w c n f) (l1 ++ c :: l2) n = Some (Plain f).
Proof.
  intros H. induction l1 as [|x l IH]; cbn.
  - now rewrite !Nat.eqb_refl.
  - rewrite Nat.eqb_refl, andb_true_r. destruct (Nat.eqb x c); [reflexivity|]. rewrite (H x) by (cbn; auto).
    apply IH. intros; apply H; cbn; auto.
Qed.
Lemma lookup_untouched w l1 l2 b c n f a : w_own w b n = Some a -> b <> c -> (forall x, In x l1 -> x <> c) ->
  (forall x, In x l1 -> w_own w x n = None) -> lookup_in (setattr w c n f) (l1 ++ b :: l2) n = Some a.
Proof.
  intros Hb Hbc H1 H2. induction l1 as [|x l IH]; cbn; rewrite Nat.eqb_refl, andb_true_r.
  - apply Nat.eqb_neq in Hbc. now rewrite Hbc, Hb.
  - pose proof (H1 x (or_introl eq_refl)) as Hx. apply Nat.eqb_neq in Hx. rewrite Hx, (H2 x) by (cbn; auto).
    apply IH; intros; [apply H1|apply H2]; cbn; auto.
Qed.
Lemma lookup_app w l1 l2 b n a : w_own w b n = Some a -> (forall x, In x l1 -> w_own w x n = None) -> lookup_in w (l1 ++ b :: l2) n = Some a.
Proof. intros Hb H. induction l1 as [|x l IH]; cbn; [now rewrite Hb|]. rewrite (H x) by (cbn; auto). apply IH. intros; apply H; cbn; auto. Qed.

(** the attributes seen by the body *)
Lemma inside w r f m c n orig : resolve w r = Ok m -> extract w m = Ok (c, n) -> getattr w c n = Some orig ->
  let new := if f_wrapped orig then cached f else f in
  (forall c' l1 l2, w_mro w c' = l1 ++ c :: l2 -> (forall b, In b l1 -> w_own w b n = None) ->
     seen (With r f (Read c' n)) w = [Some new]) /\
  (forall c' l1 b l2 a, w_mro w c' = l1 ++ b :: l2 -> b <> c -> (forall x, In x l1 -> x <> c /\ w_own w x n = None) ->
     w_own w b n = Some a -> seen (With r f (Read c' n)) w = [getattr w c' n]) /\
  (forall c' n', n' <> n -> seen (With r f (Read c' n')) w = [getattr w c' n']).
Proof.
  intros ER EX EG new. unfold seen. cbn [exec]. rewrite ER, EX, EG. fold new. cbn [fst snd].
  split; [|split].
  - intros c' l1 l2 M H. unfold getattr. cbn [w_mro setattr]. rewrite M. rewrite lookup_target by assumption. reflexivity.
  - intros c' l1 b l2 a M Hb H Ha. unfold getattr. cbn [w_mro setattr]. rewrite M.
    rewrite (lookup_untouched w l1 l2 b c n new a); [|assumption|assumption|apply H|apply H].
    rewrite (lookup_app w l1 l2 b n a); [reflexivity|assumption|apply H].
  - intros c' n' H. unfold getattr. cbn [w_mro setattr]. rewrite lookup_setattr by assumption. reflexivity.
Qed.
