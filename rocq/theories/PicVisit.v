(** Without function groups pic2qpc is the plain bottom-up materialisation. *)
From Coq Require Import List Arith Bool Reals Lia.
From Verif Require Import Base ScopeModel CircuitModel LayerModel PicModel PicSpec PicGrid PicMat.
Import ListNotations.
Local Open Scope R_scope.

Fixpoint height (p : pic) : nat :=
  match p with
  | PLeaf _ => 1
  | PInt _ _ _ c => S (height c)
  | PProd _ _ l r => S (Nat.max (height l) (height r))
  | PSum _ _ cs => S (list_max (map height cs))
  end.
Definition all_plain := fix all (l : list pic) : Prop := match l with [] => True | c :: r => plain c /\ all r end.
Lemma all_plain_spec l : all_plain l <-> Forall plain l.
Proof. induction l as [|c l IH]; cbn; split; intros H; [constructor|exact Logic.I|constructor; tauto|inversion H; tauto]. Qed.
Lemma mapR_ext {A B} (f g : A -> result B) l : (forall a, In a l -> f a = g a) -> mapR f l = mapR g l.
Proof. induction l as [|a l IH]; intros H; [reflexivity|]. cbn. rewrite (H a) by now left. fold (@mapR A B f) (@mapR A B g). rewrite IH by (intros; apply H; now right). reflexivity. Qed.
Lemma list_max_In x l : In x l -> (x <= list_max l)%nat.
Proof. intros H. pose proof (proj1 (list_max_le l (list_max l)) (le_n _)) as F. rewrite Forall_forall in F. now apply F. Qed.

Lemma visit_plain q gf G n : forall p, (height p <= n)%nat -> plain p -> visit q gf G n p = mat gf q p.
Proof.
  induction n as [|n IH]; intros p Hn HP; [destruct p; cbn in Hn; lia|]. destruct p as [u|zs ys w c|s zs l r|ws zs cs]; cbn [visit mat].
  - reflexivity.
  - cbn [height plain] in *. destruct HP as [NG PC]. destruct w as [|f|k h]; [reflexivity| |exfalso; eapply NG; reflexivity]. now rewrite (IH c) by (try assumption; lia).
  - cbn [height plain] in *. destruct HP as [PL PR]. rewrite (IH l), (IH r) by (try assumption; lia). reflexivity.
  - cbn [plain] in HP. fold all_plain in HP. apply all_plain_spec in HP. cbn [height] in Hn. rewrite (mapR_ext (visit q gf G n) (mat gf q) cs); [reflexivity|].
    intros c Hc. apply IH; [|rewrite Forall_forall in HP; now apply HP]. pose proof (list_max_In (height c) (map height cs) (in_map height cs c Hc)). lia.
Qed.

(** the two column conventions agree when the scopes list the left factor's latents first *)
Definition all_in_order := fix all (l : list pic) : Prop := match l with [] => True | c :: r => in_order c /\ all r end.
Lemma all_in_order_spec l : all_in_order l <-> Forall in_order l.
Proof. induction l as [|c l IH]; cbn; split; intros H; [constructor|exact Logic.I|constructor; tauto|inversion H; tauto]. Qed.
Lemma quad_ext q ys : forall k k' e, (forall e, k e = k' e) -> quad q ys k e = quad q ys k' e.
Proof. induction ys as [|y ys IH]; intros k k' e H; cbn [quad]; [apply H|]. apply bsum_ext. intros j _. now rewrite (IH k k'). Qed.
Lemma den_in_order gf g q x p : in_order p -> forall e, den by_scope gf g q x p e = den left_first gf g q x p e.
Proof.
  induction p as [u|zs ys w c IH|s zs l r IHl IHr|ws zs cs IH] using pic_ind'; cbn [in_order den]; intros HO e.
  - reflexivity.
  - destruct HO as [HO EQ]. unfold by_scope at 1 2, left_first at 1 2. rewrite EQ. apply quad_ext. intros e'. now rewrite IH.
  - destruct HO. now rewrite IHl, IHr.
  - fold all_in_order in HO. apply all_in_order_spec in HO. revert ws. induction cs as [|c cs IHc]; intros [|w ws]; try reflexivity. inversion IH as [|? ? H1 H2]; subst. inversion HO; subst. now rewrite H1, IHc.
Qed.
