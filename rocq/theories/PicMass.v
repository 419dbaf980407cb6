(** Summing out variables of a PIC's materialised circuit, and its total mass. *)
From Coq Require Import List Arith Bool Reals Lia Lra FunctionalExtensionality.
From Verif Require Import Base ScopeModel ScopeProofs CircuitModel Integral LayerModel PicModel PicSpec PicGrid PicMat.
Import ListNotations.
Local Open Scope R_scope.

Definition set_cell := CircuitModel.upd.

(** the input units of a PIC *)
Fixpoint leaves (p : pic) : list input :=
  match p with
  | PLeaf u => [u]
  | PInt _ _ _ c => leaves c
  | PProd _ _ l r => leaves l ++ leaves r
  | PSum _ _ cs => flat_map leaves cs
  end.
(** an input unit is a density of its variables for each value of its latents, missing
    values are summed out, and other variables do not matter *)
Definition leaf_density (D : nat -> domain) (g : input -> row -> list R -> R) (u : input) : Prop :=
  (forall v x z, In v (query (i_scope u)) -> sums (D v) (fun a => g u (set_cell x v (Some a)) z) (g u (set_cell x v None) z)) /\
  (forall v x c z, ~ In v (query (i_scope u)) -> g u (set_cell x v c) z = g u x z) /\
  (forall x z, (forall v, In v (query (i_scope u)) -> x v = None) -> g u x z = 1).

(** every integral's function is a conditional density under the rule, and sum weights sum
    exactly to one *)
Fixpoint normal (gf : nat -> nat -> list R -> list R -> R) (q : rule) (p : pic) : Prop :=
  match p with
  | PLeaf _ => True
  | PInt zs ys w c => (forall a e, quad q (order c) (fun e' => fn_of gf w a (map e' (order c))) e = 1) /\ normal gf q c
  | PProd _ _ l r => normal gf q l /\ normal gf q r
  | PSum ws _ cs => lsumR ws = 1 /\ (fix all (l : list pic) : Prop := match l with [] => True | c :: r => normal gf q c /\ all r end) cs
  end.

Lemma join_query a b s v : join a b = Ok s -> (In v (query s) <-> In v (query a) \/ In v (query b)).
Proof. unfold join. intros H. apply scope_init_nat_ok in H. destruct H as [-> _]. cbn [query]. now rewrite sortu_In, in_app_iff. Qed.
Lemma quad_ext' q ys (k k' : env -> R) : (forall e, k e = k' e) -> forall e, quad q ys k e = quad q ys k' e.
Proof. intros H. induction ys as [|y ys IH]; intros e; cbn [quad]; [apply H|]. apply bsum_ext. intros. now rewrite IH. Qed.
Lemma quad_sums d q ys (k : R -> env -> R) (u : env -> R) : (forall e, sums d (fun a => k a e) (u e)) -> forall e, sums d (fun a => quad q ys (k a) e) (quad q ys u e).
Proof.
  intros H. induction ys as [|y ys IH]; intros e; cbn [quad]; [apply H|]. eapply sums_bsum; [exact (H e)|]. intros j _. apply sums_scal, IH.
Qed.
Lemma quad_scal q ys k c : forall e, quad q ys (fun e' => c * k e') e = c * quad q ys k e.
Proof. induction ys as [|y ys IH]; intros e; cbn [quad]; [reflexivity|]. rewrite <- bsum_scal. apply bsum_ext. intros j _. rewrite IH. ring. Qed.

Section Mass.
Variable D : nat -> domain.
Variable gf : nat -> nat -> list R -> list R -> R.
Variable g : input -> row -> list R -> R.
Variable q : rule.
Notation dn x p e := (den left_first gf g q x p e).

Lemma sum_scope ws zs cs c v : mk_sum cs ws zs = Ok (PSum ws zs cs) -> In c cs -> (In v (query (pic_scope c)) <-> In v (query (pic_scope (PSum ws zs cs)))).
Proof.
  intros HS Hc. destruct (mk_sum_inv _ _ _ _ HS) as (_ & NE & _ & _ & _ & AE). destruct cs as [|c0 cs]; [congruence|]. cbn [pic_scope].
  assert (E : scope_eqb (pic_scope c) (pic_scope c0) = true) by (apply (proj1 (all_equal_spec _) AE); apply in_map; [exact Hc|now left]). apply scope_eqb_spec in E. apply E.
Qed.

Lemma den_local v c p : sound gf g q p -> (forall u, In u (leaves p) -> leaf_density D g u) -> ~ In v (query (pic_scope p)) -> forall x e, dn (set_cell x v c) p e = dn x p e.
Proof.
  induction p as [u|zs ys w p IH|s zs l r IHl IHr|ws zs cs IH] using pic_ind'; intros HS HL NV x e.
  - cbn [den]. apply (HL u (or_introl eq_refl)). exact NV.
  - cbn [den]. apply quad_ext'. intros e'. f_equal. apply IH; [apply HS|exact HL|exact NV].
  - destruct HS as (Sl & Sr & MP & _). destruct (mk_prod_inv _ _ _ _ MP) as (_ & J & _). cbn [den pic_scope] in *. pose proof (join_query _ _ _ v J) as Q.
    rewrite IHl, IHr; [reflexivity|exact Sr|intros u Hu; apply HL; cbn [leaves]; apply in_app_iff; now right|tauto|exact Sl|intros u Hu; apply HL; cbn [leaves]; apply in_app_iff; now left|tauto].
  - destruct HS as [MS AS]. destruct (mk_sum_inv _ _ _ _ MS) as (_ & _ & LW & _). change (all_sound gf g q (order (PSum ws zs cs)) cs) in AS. apply all_sound_spec in AS.
    set (d := PSum [] empty_scope []). rewrite (den_sum left_first gf g q (set_cell x v c) ws zs cs e d LW), (den_sum left_first gf g q x ws zs cs e d LW). apply bsum_ext. intros i Hi. f_equal.
    pose proof (nth_In cs d Hi) as Hn. rewrite Forall_forall in IH, AS. apply IH; [exact Hn|apply (AS _ Hn)|intros u Hu; apply HL; cbn [leaves]; apply in_flat_map; now exists (nth i cs d)|]. rewrite (sum_scope ws zs cs _ v MS Hn). exact NV.
Qed.

Lemma den_sums v p : sound gf g q p -> (forall u, In u (leaves p) -> leaf_density D g u) -> In v (query (pic_scope p)) ->
  forall x e, sums (D v) (fun a => dn (set_cell x v (Some a)) p e) (dn (set_cell x v None) p e).
Proof.
  induction p as [u|zs ys w p IH|s zs l r IHl IHr|ws zs cs IH] using pic_ind'; intros HS HL NV x e.
  - cbn [den]. apply (HL u (or_introl eq_refl)). exact NV.
  - cbn [den]. apply (quad_sums (D v) q (left_first ys p) (fun a e' => fn_of gf w (map e (query zs)) (map e' (left_first ys p)) * dn (set_cell x v (Some a)) p e')).
    intros e'. apply sums_scal. apply IH; [apply HS|exact HL|exact NV].
  - destruct HS as (Sl & Sr & MP & _). destruct (mk_prod_inv _ _ _ _ MP) as (DJ & J & _). cbn [den pic_scope] in *. pose proof (join_query _ _ _ v J) as Q.
    assert (HLl : forall u, In u (leaves l) -> leaf_density D g u) by (intros u Hu; apply HL; cbn [leaves]; apply in_app_iff; now left).
    assert (HLr : forall u, In u (leaves r) -> leaf_density D g u) by (intros u Hu; apply HL; cbn [leaves]; apply in_app_iff; now right).
    pose proof (proj1 (disjb_spec _ _) DJ v) as DV.
    apply Q in NV. destruct NV as [NV|NV].
    + apply sums_ext with (f := fun a => dn x r e * dn (set_cell x v (Some a)) l e); [intros a; rewrite (den_local v (Some a) r Sr HLr (DV NV)); ring|].
      rewrite (den_local v None r Sr HLr (DV NV)), Rmult_comm. apply sums_scal. now apply IHl.
    + assert (NL : ~ In v (query (pic_scope l))) by (intros H; now apply DV).
      apply sums_ext with (f := fun a => dn x l e * dn (set_cell x v (Some a)) r e); [intros a; rewrite (den_local v (Some a) l Sl HLl NL); ring|].
      rewrite (den_local v None l Sl HLl NL). apply sums_scal. now apply IHr.
  - destruct HS as [MS AS]. destruct (mk_sum_inv _ _ _ _ MS) as (_ & NE & LW & _). change (all_sound gf g q (order (PSum ws zs cs)) cs) in AS. apply all_sound_spec in AS.
    set (d := PSum [] empty_scope []). rewrite (den_sum left_first gf g q (set_cell x v None) ws zs cs e d LW).
    apply sums_ext with (f := fun a => bsum (length cs) (fun i => nth i ws 0 * dn (set_cell x v (Some a)) (nth i cs d) e)); [intros a; now rewrite (den_sum left_first gf g q (set_cell x v (Some a)) ws zs cs e d LW)|].
    rewrite Forall_forall in IH, AS.
    assert (ONE : forall i, (i < length cs)%nat -> sums (D v) (fun a => dn (set_cell x v (Some a)) (nth i cs d) e) (dn (set_cell x v None) (nth i cs d) e)).
    { intros i Hi. pose proof (nth_In cs d Hi) as Hn. apply IH; [exact Hn|apply (AS _ Hn)|intros u Hu; apply HL; cbn [leaves]; apply in_flat_map; now exists (nth i cs d)|]. rewrite (sum_scope ws zs cs _ v MS Hn). exact NV. }
    eapply sums_bsum; [apply (ONE 0%nat); destruct cs; [congruence|cbn; lia]|]. intros i Hi. apply sums_scal. now apply ONE.
Qed.

(** all variables missing: only the weights remain *)
Lemma den_none p : sound gf g q p -> (forall u, In u (leaves p) -> leaf_density D g u) -> forall x e, (forall v, In v (query (pic_scope p)) -> x v = None) ->
  dn x p e = den left_first gf (fun _ _ _ => 1) q x p e.
Proof.
  induction p as [u|zs ys w p IH|s zs l r IHl IHr|ws zs cs IH] using pic_ind'; intros HS HL x e NV.
  - cbn [den]. apply (HL u (or_introl eq_refl)). exact NV.
  - cbn [den]. apply quad_ext'. intros e'. f_equal. apply IH; [apply HS|exact HL|exact NV].
  - destruct HS as (Sl & Sr & MP & _). destruct (mk_prod_inv _ _ _ _ MP) as (_ & J & _). cbn [den pic_scope] in *.
    rewrite IHl, IHr; [reflexivity|exact Sr|intros u Hu; apply HL; cbn [leaves]; apply in_app_iff; now right|intros v Hv; apply NV, (join_query _ _ _ v J); now right|exact Sl|intros u Hu; apply HL; cbn [leaves]; apply in_app_iff; now left|intros v Hv; apply NV, (join_query _ _ _ v J); now left].
  - destruct HS as [MS AS]. destruct (mk_sum_inv _ _ _ _ MS) as (_ & _ & LW & _). change (all_sound gf g q (order (PSum ws zs cs)) cs) in AS. apply all_sound_spec in AS.
    set (d := PSum [] empty_scope []). rewrite (den_sum left_first gf g q x ws zs cs e d LW), (den_sum left_first gf (fun _ _ _ => 1) q x ws zs cs e d LW). apply bsum_ext. intros i Hi. f_equal.
    pose proof (nth_In cs d Hi) as Hn. rewrite Forall_forall in IH, AS. apply IH; [exact Hn|apply (AS _ Hn)|intros u Hu; apply HL; cbn [leaves]; apply in_flat_map; now exists (nth i cs d)|]. intros v Hv. apply NV. now apply (sum_scope ws zs cs _ v MS Hn).
Qed.
Lemma den_normal p : sound gf g q p -> normal gf q p -> forall x e, den left_first gf (fun _ _ _ => 1) q x p e = 1.
Proof.
  induction p as [u|zs ys w p IH|s zs l r IHl IHr|ws zs cs IH] using pic_ind'; intros HS HN x e.
  - reflexivity.
  - cbn [den]. destruct HN as [HW HN]. rewrite (quad_ext' q (left_first ys p) _ (fun e' => fn_of gf w (map e (query zs)) (map e' (left_first ys p)))); [apply HW|]. intros e'. rewrite IH; [ring|apply HS|exact HN].
  - destruct HS as (Sl & Sr & _). destruct HN as [Nl Nr]. cbn [den]. rewrite IHl, IHr by assumption. ring.
  - destruct HS as [MS AS]. destruct (mk_sum_inv _ _ _ _ MS) as (_ & _ & LW & _). change (all_sound gf g q (order (PSum ws zs cs)) cs) in AS. apply all_sound_spec in AS. destruct HN as [SW HN].
    assert (NA : Forall (normal gf q) cs) by (clear -HN; induction cs as [|c cs IHc]; constructor; [apply HN|apply IHc, HN]).
    set (d := PSum [] empty_scope []). rewrite (den_sum left_first gf (fun _ _ _ => 1) q x ws zs cs e d LW). rewrite (bsum_ext _ _ (fun i => nth i ws 0)).
    + rewrite <- LW, <- SW. clear. induction ws as [|w ws IHw]; [reflexivity|]. cbn [length]. rewrite bsum_S_first. cbn [nth lsumR]. now rewrite IHw.
    + intros i Hi. pose proof (nth_In cs d Hi) as Hn. rewrite Forall_forall in IH, AS, NA. rewrite IH; [ring|exact Hn|apply (AS _ Hn)|now apply NA].
Qed.

Lemma den_total p x e : sound gf g q p -> (forall u, In u (leaves p) -> leaf_density D g u) -> NoDup (query (pic_scope p)) ->
  sums_over D (query (pic_scope p)) (fun y => dn y p e) x (den left_first gf (fun _ _ _ => 1) q x p e).
Proof.
  intros HS HL ND. pose proof (sums_over_nan D (fun y => dn y p e) (fun v => In v (query (pic_scope p))) (fun v y Hv => den_sums v p HS HL Hv y e) (query (pic_scope p)) x ND (fun v H => H)) as H.
  cbv beta in H. rewrite (den_none p HS HL _ e (fun v Hv => set_nan_In _ x v Hv)) in H.
  assert (E : forall y z e', den left_first gf (fun _ _ _ => 1) q y p e' = den left_first gf (fun _ _ _ => 1) q z p e'); [|now rewrite (E x (set_nan (query (pic_scope p)) x) e)].
  clear. reflexivity.
Qed.
End Mass.
