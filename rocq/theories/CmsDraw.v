(** Sampling from compiled Chow-Liu tree mixtures: one component is sampled exactly,
    two components are not. *)
From Coq Require Import List Arith ZArith Bool Reals Lia Lra FunctionalExtensionality.
From Verif Require Import Base ScopeModel CircuitModel CircuitBasics CircuitEval Integral LeafModel LeafProofs SampleModel SampleSpec SampleExp SampleExamples StackSampleStep
  ExpUnique CltModel CltSpec CltDfs CltElim CltTop CltFit CmsModel CmsSpec CmsProofs CmsTop CmsTree.
Import ListNotations.
Local Open Scope R_scope.

(** *** what a tree may draw *)
Lemma assign_range K parents cpt ob s root : forall pre a a', (forall i v, In i pre -> ob i = Some v -> (v < K)%nat) ->
  outcome (assign K parents cpt false ob s root pre a) a' -> forall j, ((a j < K)%nat \/ (In j pre /\ j <> root)) -> (a' j < K)%nat.
Proof.
  induction pre as [|i pre IH]; intros a a' HO H j Hj; cbn [assign] in H.
  - inversion H; subst. destruct Hj as [Hj|[[] _]]. exact Hj.
  - assert (HO' : forall i v, In i pre -> ob i = Some v -> (v < K)%nat) by (intros i' v Hi; apply HO; now right).
    destruct (Nat.eqb_spec i root) as [->|N].
    + apply (IH _ _ HO' H). destruct Hj as [Hj|[[<-|Hj] Hn]]; [now left|contradiction|now right].
    + assert (G : forall k, (k < K)%nat -> ((fupd a i k j < K)%nat \/ (In j pre /\ j <> root))).
      { intros k Hk. unfold fupd. destruct (Nat.eqb_spec j i) as [->|Nj]; [now left|]. destruct Hj as [Hj|[[<-|Hj] Hn]]; [now left|contradiction|right; auto]. }
      destruct (ob i) as [v|] eqn:E; [apply (IH _ _ HO' H); apply G; apply (HO i v); [now left|exact E]|].
      apply outcome_bind in H. destruct H as (k & Hk & H). apply logits_outcome in Hk. apply (IH _ _ HO' H). now apply G.
Qed.
Lemma sample_outcome query C P K alpha parents cpt root t junk c r ch mask x ob x' : mk_cltree query C P K alpha parents cpt = Ok t ->
  rooted_tree parents root -> (forall f, (f < length query)%nat -> ch f = c) -> observes (length query) K x ob ->
  outcome (clt_sample false junk t ch r mask x) x' ->
  exists z, x' = fill x mask z /\ forall j, (j < length query)%nat -> (z j < K)%nat.
Proof.
  intros HT T Hch OB. destruct (parts _ _ _ _ _ _ _ _ _ HT T) as (Kp & L & pre & G & ->). unfold clt_sample, t_F. cbn [t_K t_query t_parents t_pre].
  rewrite (has_structure_tree _ _ T). cbn [negb]. destruct (forallb _ _); cbn [negb]; [|intros H; inversion H].
  destruct (row_ok _ _ _) eqn:RO; cbn [negb]; [|intros H; inversion H].
  intros H. apply outcome_bind in H. destruct H as (a & Ha & H). inversion H as [b Eb| |]; subst. exists a.
  split; [apply functional_extensionality; intros j; unfold fill; destruct (x j); reflexivity|]. intros j Hj.
  unfold clt_assign in Ha. apply outcome_bind in Ha. destruct Ha as (xr & Hx & Ha). rewrite (root_of_tree _ _ T) in *.
  destruct G as (_ & IN & _ & _).
  assert (HO : forall i v, In i pre -> obs x i = Some v -> (v < K)%nat).
  { intros i v Hi E. apply IN in Hi. assert (i < length query)%nat as Hi' by (rewrite <- L; exact Hi). rewrite (observes_obs _ _ _ _ _ OB Hi') in E.
    specialize (OB i Hi'). rewrite E in OB. apply OB. }
  apply (assign_range _ _ _ _ _ _ _ _ _ HO Ha). unfold fupd. destruct (Nat.eqb_spec j root) as [->|N].
  - left. destruct (obs x root) as [v|] eqn:E; [inversion Hx; subst; apply (HO root xr); [apply IN; apply T|exact E]|now apply logits_outcome in Hx].
  - right. split; [apply IN; rewrite L; exact Hj|exact N].
Qed.

(** *** one component *)
Lemma wanted_all F x ob vs v : (v < F)%nat -> missing_of F ob vs -> In v vs -> (forall f, (f < F)%nat -> ob f = None -> x f = None) -> wanted F (fun _ => true) x = true.
Proof.
  intros Hv [_ M] Hi HX. unfold wanted. apply existsb_exists. exists v. split; [apply in_seq; lia|]. cbn. rewrite HX; [reflexivity|exact Hv|]. now apply M.
Qed.
Lemma single_sample F K alpha parents root raw w m D junk x ob vs y g : rooted_tree parents root -> length parents = F ->
  compile_cltree F K alpha parents 1 raw w = Ok m -> observes F K x ob -> missing_of F ob vs ->
  (forall i v, (i < F)%nat -> ob i = Some v -> y i = v) -> first_cells F g ->
  expects D (joint_sample false junk m x) g
    (fsum K vs (fun z => tree_prob parents (table K root (raw 0%nat)) z * g (fill x (fun _ => true) z)) y /
     fsum K vs (tree_prob parents (table K root (raw 0%nat))) y).
Proof.
  intros T HF HM OB MV HY HG. destruct (m_parts _ _ _ _ _ _ _ _ HM) as (EF & L & LG & TR).
  destruct (m_facts _ _ _ _ _ _ _ _ T HF _ HM) as (F2 & K2 & A0 & N1 & WP & WS).
  destruct (tm_trees m) as [|t [|t' ts]] eqn:ET; try discriminate. unfold joint_sample. rewrite EF, ET. cbn [length].
  pose proof (TR 0%nat t eq_refl) as MK.
  assert (CH : forall k ch, outcome (pick_channels false k 1 (fun _ => tm_logits m)) ch -> forall f, ch f = 0%nat).
  { induction k as [|k IH]; intros ch H f; cbn [pick_channels] in H; [now inversion H; subst|].
    apply outcome_bind in H. destruct H as (c0 & Hc & H). apply outcome_bind in H. destruct H as (k0 & Hk & H). apply logits_outcome in Hk. inversion H; subst.
    unfold fupd. destruct (Nat.eqb f k); [lia|now apply IH]. }
  assert (TP : forall z, tree_prob parents (fun f a p => pr (cpt_at F K parents raw 0 f 0%nat 0%nat a p)) z = tree_prob parents (table K root (raw 0%nat)) z).
  { intros z. unfold tree_prob. apply bprod_ext. intros j Hj. unfold cpt_at. cbn [pr]. rewrite (root_of_tree _ _ T).
    destruct (Z.eqb _ _); apply decode_table; lia. }
  assert (PT : forall z, 0 < tree_prob parents (table K root (raw 0%nat)) z).
  { intros z. rewrite <- TP. unfold tree_prob. generalize (length parents) as k. induction k as [|k IH]; cbn [bprod]; [lra|].
    apply Rmult_lt_0_compat; [exact IH|]. unfold cpt_at. cbn [pr]. destruct (Z.eqb _ _); apply exp_pos. }
  assert (PF : forall l z, 0 < fsum K l (tree_prob parents (table K root (raw 0%nat))) z).
  { induction l as [|v l IH]; intros z; cbn [fsum]; [apply PT|]. destruct K as [|K']; [lia|]. cbn [bsum].
    apply Rplus_le_lt_0_compat; [apply bsum_nonneg; intros; apply Rlt_le, IH|apply IH]. }
  set (u := _ / _).
  apply (expects_bind D _ _ g (fun _ => u)).
  - clear - N1. generalize F as k. induction k as [|k IH]; cbn [pick_channels]; [reflexivity|].
    eapply expects_bind; [exact IH|]. intros ch _. cbv beta. rewrite sample_logits_pos by (cbn [bsum pr]; pose proof (exp_pos (tm_logits m 0)); lra).
    cbn [pbind expects]. exists (fun _ => u). split; [reflexivity|]. cbn [bsum pr]. pose proof (exp_pos (tm_logits m 0)). field. lra.
  - intros ch Hch. pose proof (CH F ch Hch) as C0. destruct vs as [|v vs'].
    + assert (wanted F (fun _ => true) x = false) as ->.
      { unfold wanted. destruct (existsb _ _) eqn:E; [|reflexivity]. apply existsb_exists in E. destruct E as (f & Hf & E). apply in_seq in Hf.
        specialize (OB f ltac:(lia)). destruct (ob f) as [k|] eqn:Eo; [destruct OB as [_ OB]; rewrite OB in E; discriminate|].
        exfalso. apply (proj2 (proj2 MV f)). split; [lia|exact Eo]. }
      cbn [expects]. unfold u. cbn [fsum]. assert (g (fill x (fun _ => true) y) = g x) as ->; [|field; apply Rgt_not_eq, PT].
      apply HG. intros j Hj. unfold fill. specialize (OB j Hj). destruct (ob j) as [k|] eqn:Eo; [destruct OB as [_ OB]; now rewrite OB|].
      exfalso. apply (proj2 (proj2 MV j)). split; [exact Hj|exact Eo].
    + rewrite (wanted_all F x ob (v :: vs') v); [|apply (proj1 (proj2 MV v)); now left|exact MV|now left|intros f Hf E; specialize (OB f Hf); now rewrite E in OB].
      assert (E : u = fsum K (v :: vs') (fun z => tree_prob parents (fun f a p => pr (cpt_at F K parents raw 0 f 0%nat 0%nat a p)) z * g (fill x (fun _ => true) z)) y /
         fsum K (v :: vs') (tree_prob parents (fun f a p => pr (cpt_at F K parents raw 0 f 0%nat 0%nat a p))) y).
      { unfold u. f_equal; apply fsum_ext; intros z; now rewrite TP. }
      rewrite E. apply (sample_expects _ _ _ _ _ _ _ _ _ MK T D junk 0%nat 0%nat ch (fun _ => true) x ob (v :: vs') y g); rewrite ?seq_length; auto.
      rewrite (fsum_ext _ _ _ (tree_prob parents (table K root (raw 0%nat)))) by exact TP. apply Rgt_not_eq, PF.
Qed.

(** *** two components *)
Definition raw2 (i k : nat) : R := if (Nat.eqb k i || Nat.eqb k (6 + 2 * i) || Nat.eqb k (7 + 2 * i))%bool then ln 3 else 0.
Definition par2 : list Z := [-1; 0]%Z.
Definition pp (i a : nat) : R := if Nat.eqb a i then 3 / 4 else 1 / 4.
Lemma tree2 : rooted_tree par2 0.
Proof.
  unfold par2. split; [cbn; lia|]. split; [reflexivity|]. split.
  - intros [|[|i]] Hi E; [reflexivity|discriminate|cbn in Hi; lia].
  - intros [|[|i]] Hi; [constructor| |cbn in Hi; lia]. apply (reach_step _ _ 1 0); [cbn; lia|cbn; lia|reflexivity|constructor].
Qed.
Lemma table2 i f a p : (i < 2)%nat -> (f < 2)%nat -> (a < 2)%nat -> (p < 2)%nat -> table 2 0 (raw2 i) f a p = pp i a.
Proof.
  intros Hi Hf Ha Hp. assert (exp (ln 3) = 3) as E3 by (apply exp_ln; lra).
  unfold table, pp. destruct i as [|[|i]]; [| |lia]; (destruct f as [|[|f]]; [| |lia]); (destruct a as [|[|a]]; [| |lia]); (destruct p as [|[|p]]; [| |lia]);
    cbn [Nat.eqb Nat.add Nat.mul bsum]; unfold raw2; cbn [Nat.eqb Nat.add Nat.mul orb]; rewrite ?E3, ?exp_0; field.
Qed.
Lemma prob2 i z : (i < 2)%nat -> (z 0 < 2)%nat -> (z 1 < 2)%nat -> tree_prob par2 (table 2 0 (raw2 i)) z = pp i (z 0%nat) * pp i (z 1%nat).
Proof.
  intros Hi H0 H1. unfold tree_prob, par2. cbn [length bprod nth]. change (Z.eqb (-1) (-1)) with true. change (Z.eqb 0 (-1)) with false. change (Z.to_nat 0) with 0%nat. cbn iota. rewrite !table2 by lia. ring.
Qed.

Definition half (_ : nat) : R := 1 / 2.
Lemma mix2_ex : exists m, compile_cltree 2 2 1 par2 2 raw2 half = Ok m.
Proof.
  apply (compile_cltree_iff 2 2 1 par2 0 2 raw2 half tree2 eq_refl). repeat split; try lia; try lra; [intros; unfold half; lra|].
  unfold half. cbn [bsum]. replace (0 + 1 / 2 + 1 / 2 - 1) with 0 by field. rewrite Rabs_R0. apply Rlt_le, Rinv_0_lt_compat. lra.
Qed.

Section Two.
  Variable m : tree_mixture.
  Hypothesis HM : compile_cltree 2 2 1 par2 2 raw2 half = Ok m.
  Variable D : nat -> domain.
  Variable junk : nat -> nat.
  Lemma draw2 i t mask x ob vs y g : nth_error (tm_trees m) i = Some t -> (i < 2)%nat -> observes 2 2 x ob -> missing_of 2 ob vs ->
    (forall j v, (j < 2)%nat -> ob j = Some v -> y j = v) -> (forall j, (j < 2)%nat -> (y j < 2)%nat) -> first_cells 2 g ->
    fsum 2 vs (fun z => pp i (z 0%nat) * pp i (z 1%nat)) y <> 0 ->
    expects D (clt_sample false junk t (fun _ => 0%nat) 0 mask x) g
      (fsum 2 vs (fun z => pp i (z 0%nat) * pp i (z 1%nat) * g (fill x mask z)) y / fsum 2 vs (fun z => pp i (z 0%nat) * pp i (z 1%nat)) y).
  Proof.
    intros Ht Hi OB MV HY HR HG NZ. destruct (m_parts _ _ _ _ _ _ _ _ HM) as (EF & L & LG & TR). pose proof (TR i t Ht) as MK.
    assert (FS : forall l h h' x0, (forall j, In j l -> (j < 2)%nat) -> (forall j, (j < 2)%nat -> (x0 j < 2)%nat) ->
      (forall z, (z 0 < 2)%nat -> (z 1 < 2)%nat -> h z = h' z) -> fsum 2 l h x0 = fsum 2 l h' x0).
    { induction l as [|v l IH]; intros h h' x0 HL HX HH; cbn [fsum]; [apply HH; apply HX; lia|]. apply bsum_ext. intros k Hk. apply IH; auto.
      - intros j Hj. apply HL. now right. - intros j Hj. destruct (Nat.eqb j v); [exact Hk|now apply HX]. }
    assert (TP : forall z, (z 0 < 2)%nat -> (z 1 < 2)%nat -> tree_prob par2 (fun f a p => pr (cpt_at 2 2 par2 raw2 i f 0%nat 0%nat a p)) z = pp i (z 0%nat) * pp i (z 1%nat)).
    { intros z H0 H1. rewrite <- prob2 by assumption. unfold tree_prob. apply bprod_ext. intros j Hj. unfold cpt_at. cbn [pr]. rewrite (root_of_tree _ _ tree2).
      destruct (Z.eqb _ _); apply decode_table; lia. }
    assert (HL : forall j, In j vs -> (j < 2)%nat) by (intros j Hj; now apply (proj2 MV)).
    assert (Z1 : fsum 2 vs (tree_prob par2 (fun f a p => pr (cpt_at 2 2 par2 raw2 i f 0%nat 0%nat a p))) y = fsum 2 vs (fun z => pp i (z 0%nat) * pp i (z 1%nat)) y) by (apply FS; auto).
    rewrite <- Z1. rewrite <- (FS vs (fun z => tree_prob par2 (fun f a p => pr (cpt_at 2 2 par2 raw2 i f 0%nat 0%nat a p)) z * g (fill x mask z))); auto.
    - apply (sample_expects _ _ _ _ _ _ _ _ _ MK tree2 D junk 0%nat 0%nat (fun _ => 0%nat) mask x ob vs y g); auto. rewrite Z1. exact NZ.
    - intros z H0 H1. now rewrite TP.
  Qed.

  Definition chans (a b : nat) : nat -> nat := fupd (fupd (fun _ => 0%nat) 0 a) 1 b.
  Lemma pick2 h : expects D (pick_channels false 2 2 (fun _ => tm_logits m)) h
    (/ 4 * (h (chans 0 0) + h (chans 0 1) + h (chans 1 0) + h (chans 1 1))).
  Proof.
    destruct (m_parts _ _ _ _ _ _ _ _ HM) as (EF & L & LG & TR).
    assert (EQ : sample_logits false 2 (fun i => Fin (tm_logits m i)) = Choose 2 (fun _ => / 2) (fun i => Ret i)).
    { assert (forall i, exp (tm_logits m i) = / 2) as E by (intros i; rewrite LG; unfold half; rewrite exp_ln; lra).
      rewrite sample_logits_pos; cbn [bsum pr]; rewrite ?E; [|lra]. f_equal. apply functional_extensionality. intros i. rewrite E. field. }
    cbn [pick_channels]. rewrite EQ. cbn [pbind expects].
    exists (fun a => / 2 * (h (chans a 0) + h (chans a 1))). split; [|cbn [bsum]; field].
    intros a Ha _. exists (fun b => h (chans a b)). split; [|cbn [bsum]; field]. intros b Hb _. reflexivity.
  Qed.

  Definition g2 : cells -> R := row_is 2 (fun f => f).
  Lemma g2_first : first_cells 2 g2.
  Proof. intros x y H. unfold g2, row_is. cbn [bprod]. rewrite (H 0%nat), (H 1%nat) by lia. reflexivity. Qed.
  Definition hit (k : nat) (o : option R) : R := match o with Some a => if Req_EM_T a (INR k) then 1 else 0 | None => 0 end.
  Lemma g2_hit x : g2 x = hit 0 (x 0%nat) * hit 1 (x 1%nat).
  Proof. unfold g2, row_is, hit. cbn [bprod]. ring. Qed.
  Lemma hit_INR k j : hit k (Some (INR j)) = if Nat.eqb j k then 1 else 0.
  Proof.
    cbn [hit]. destruct (Req_EM_T (INR j) (INR k)) as [E|E]; destruct (Nat.eqb_spec j k) as [N|N]; try reflexivity.
    - apply INR_eq in E. contradiction. - subst. contradiction.
  Qed.
  Definition x0 : cells := fun _ => None.
  Lemma ob0 : observes 2 2 x0 (fun _ => None).
  Proof. intros i _. reflexivity. Qed.
  Lemma miss0 : missing_of 2 (fun _ => None) [0; 1]%nat.
  Proof.
    split; [repeat constructor; cbn; intuition lia|]. intros v. split.
    - intros [<-|[<-|[]]]; split; auto; lia. - intros [H _]. destruct v as [|[|v]]; cbn; auto; lia.
  Qed.
  Lemma miss1 a k : (a < 2)%nat -> missing_of 2 (fun j => if Nat.eqb j a then Some k else None) [(1 - a)%nat].
  Proof.
    intros Ha. split; [repeat constructor; cbn; intuition lia|]. intros v. split.
    - intros [<-|[]]. split; [lia|]. destruct (Nat.eqb_spec (1 - a) a); [lia|reflexivity].
    - intros [H N]. left. destruct (Nat.eqb_spec v a); [discriminate|lia].
  Qed.
  (** one tree draws both cells *)
  Lemma both i t : nth_error (tm_trees m) i = Some t -> (i < 2)%nat -> forall mask, mask 0%nat = true -> mask 1%nat = true ->
    expects D (clt_sample false junk t (fun _ => 0%nat) 0 mask x0) g2 (3 / 16).
  Proof.
    intros Ht Hi mask M0 M1.
    pose proof (draw2 i t mask x0 (fun _ => None) [0; 1]%nat (fun _ => 0%nat) g2 Ht Hi ob0 miss0 ltac:(intros; discriminate) ltac:(intros; cbv beta; apply Nat.lt_0_succ) g2_first) as X.
    assert (S1 : fsum 2 [0; 1]%nat (fun z => pp i (z 0%nat) * pp i (z 1%nat)) (fun _ => 0%nat) = 1).
    { cbn [fsum bsum Nat.eqb]. destruct i as [|[|i]]; [| |lia]; unfold pp; cbn [Nat.eqb]; field. }
    rewrite S1 in X. specialize (X ltac:(lra)).
    assert (S2 : fsum 2 [0; 1]%nat (fun z => pp i (z 0%nat) * pp i (z 1%nat) * g2 (fill x0 mask z)) (fun _ => 0%nat) = 3 / 16).
    { cbn [fsum bsum]. rewrite !g2_hit. unfold fill, x0. rewrite M0, M1. cbn [Nat.eqb]. rewrite !hit_INR. cbn [Nat.eqb].
      destruct i as [|[|i]]; [| |lia]; unfold pp; cbn [Nat.eqb]; field. }
    rewrite S2 in X. replace (3 / 16) with (3 / 16 / 1) by field. exact X.
  Qed.
  (** a tree draws cell [a] of an empty row *)
  Lemma first_one i t a h : nth_error (tm_trees m) i = Some t -> (i < 2)%nat -> (a < 2)%nat -> forall mask, mask a = true -> 
    expects D (clt_sample false junk t (fun _ => 0%nat) 0 mask x0) (fun x => hit a (x a) * h)  (pp i a * h).
  Proof.
    intros Ht Hi Ha mask M0.
    pose proof (draw2 i t mask x0 (fun _ => None) [0; 1]%nat (fun _ => 0%nat) (fun x => hit a (x a) * h) Ht Hi ob0 miss0 ltac:(intros; discriminate) ltac:(intros; cbv beta; apply Nat.lt_0_succ)) as X.
    specialize (X ltac:(intros x y H; now rewrite H)).
    assert (S1 : fsum 2 [0; 1]%nat (fun z => pp i (z 0%nat) * pp i (z 1%nat)) (fun _ => 0%nat) = 1).
    { cbn [fsum bsum Nat.eqb]. destruct i as [|[|i]]; [| |lia]; unfold pp; cbn [Nat.eqb]; field. }
    rewrite S1 in X. specialize (X ltac:(lra)).
    assert (S2 : fsum 2 [0; 1]%nat (fun z => pp i (z 0%nat) * pp i (z 1%nat) * (hit a (fill x0 mask z a) * h)) (fun _ => 0%nat) = pp i a * h).
    { cbn [fsum bsum]. unfold fill, x0. rewrite M0. rewrite !hit_INR.
      destruct i as [|[|i]]; [| |lia]; (destruct a as [|[|a]]; [| |lia]); unfold pp; cbn [Nat.eqb]; field. }
    rewrite S2 in X. replace (pp i a * h) with (pp i a * h / 1) by field. exact X.
  Qed.
  (** a tree draws the other cell of a row with cell [a] given *)
  Lemma second_one i t a k x : nth_error (tm_trees m) i = Some t -> (i < 2)%nat -> (a < 2)%nat -> (k < 2)%nat -> forall mask, mask (1 - a)%nat = true ->
    x a = Some (INR k) -> x (1 - a)%nat = None ->
    expects D (clt_sample false junk t (fun _ => 0%nat) 0 mask x) g2 (hit a (x a) * pp i (1 - a)%nat).
  Proof.
    intros Ht Hi Ha Hk mask M1 XA XB.
    assert (OB : observes 2 2 x (fun j => if Nat.eqb j a then Some k else None)).
    { intros j Hj. destruct (Nat.eqb_spec j a) as [->|N]; [split; [exact Hk|exact XA]|]. replace j with (1 - a)%nat by lia. exact XB. }
    pose proof (draw2 i t mask x _ [(1 - a)%nat] (fun j => if Nat.eqb j a then k else 0%nat) g2 Ht Hi OB (miss1 a k Ha)) as X.
    specialize (X ltac:(intros j v _; cbv beta; destruct (Nat.eqb j a); congruence) ltac:(intros j _; cbv beta; destruct (Nat.eqb j a); lia) g2_first).
    assert (P4 : forall c, pp i c <> 0) by (intros c; unfold pp; destruct (Nat.eqb c i); lra).
    assert (S1 : fsum 2 [(1 - a)%nat] (fun z => pp i (z 0%nat) * pp i (z 1%nat)) (fun j => if Nat.eqb j a then k else 0%nat) = pp i k).
    { cbn [fsum bsum]. destruct i as [|[|i]]; [| |lia]; (destruct a as [|[|a]]; [| |lia]); (destruct k as [|[|k]]; [| |lia]); unfold pp; cbn [Nat.eqb Nat.sub]; field. }
    rewrite S1 in X. specialize (X (P4 k)).
    assert (S2 : fsum 2 [(1 - a)%nat] (fun z => pp i (z 0%nat) * pp i (z 1%nat) * g2 (fill x mask z)) (fun j => if Nat.eqb j a then k else 0%nat)
       = pp i k * (hit a (x a) * pp i (1 - a)%nat)).
    { cbn [fsum bsum]. rewrite !g2_hit. rewrite XA, hit_INR.
      destruct a as [|[|a]]; [| |lia]; cbn [Nat.sub] in *; unfold fill; rewrite XA, XB, M1; cbn [Nat.eqb]; rewrite !hit_INR;
      (destruct i as [|[|i]]; [| |lia]); (destruct k as [|[|k]]; [| |lia]); unfold pp; cbn [Nat.eqb]; field. }
    rewrite S2 in X. replace (hit a (x a) * pp i (1 - a)%nat) with (pp i k * (hit a (x a) * pp i (1 - a)%nat) / pp i k) by (field; apply P4). exact X.
  Qed.
  Lemma joint2 : expects D (joint_sample false junk m x0) g2 (1 / 4).
  Proof.
    destruct (m_parts _ _ _ _ _ _ _ _ HM) as (EF & L & LG & TR). destruct (tm_trees m) as [|t [|t' [|]]] eqn:ET; try discriminate.
    pose proof (eq_refl (Some t)) as H0. change (Some t) with (nth_error [t; t'] 0) in H0 at 1. rewrite <- ET in H0.
    pose proof (eq_refl (Some t')) as H1. change (Some t') with (nth_error [t; t'] 1) in H1 at 1. rewrite <- ET in H1.
    unfold joint_sample. rewrite EF, ET. cbn [length].
    set (h := fun ch : nat -> nat => match ch 0%nat, ch 1%nat with O, O => 3 / 16 | O, S _ => 9 / 16 | S _, O => 1 / 16 | S _, S _ => 3 / 16 end).
    pose proof (pick2 h) as P. replace (1 / 4) with (/ 4 * (h (chans 0 0) + h (chans 0 1) + h (chans 1 0) + h (chans 1 1))) by (unfold h, chans, fupd; cbn [Nat.eqb]; field).
    eapply expects_bind; [exact P|]. intros ch Hch.
    assert (C : forall k ch, outcome (pick_channels false k 2 (fun _ => tm_logits m)) ch -> forall f, (ch f < 2)%nat).
    { clear. induction k as [|k IH]; intros ch H f; cbn [pick_channels] in H; [inversion H; subst; lia|].
      apply outcome_bind in H. destruct H as (c0 & Hc & H). apply outcome_bind in H. destruct H as (k0 & Hk & H). apply logits_outcome in Hk. inversion H; subst.
      unfold fupd. destruct (Nat.eqb f k); [lia|now apply IH]. }
    pose proof (C 2%nat ch Hch 0%nat) as C0. pose proof (C 2%nat ch Hch 1%nat) as C1. unfold h.
    assert (TAIL : forall x u, expects D (if wanted 2 (routed (fun _ => true) ch 1) x then clt_sample false junk t' (fun _ => 0%nat) 0 (routed (fun _ => true) ch 1) x else Ret x) g2 u ->
      expects D (fill_trees false junk 2 (fun _ => true) ch 1 [t'] x) g2 u).
    { intros x u H. cbn [fill_trees]. eapply expects_bind; [exact H|]. intros y _. reflexivity. }
    assert (FILL : forall mask x, outcome (clt_sample false junk t (fun _ => 0%nat) 0 mask x0) x -> exists z, x = fill x0 mask z /\ forall j, (j < 2)%nat -> (z j < 2)%nat).
    { intros mask x Hx. exact (sample_outcome _ _ _ _ _ _ _ 0%nat t junk 0%nat 0%nat (fun _ => 0%nat) mask x0 (fun _ => None) x (TR 0%nat t eq_refl) tree2 (fun _ _ => eq_refl) ob0 Hx). }
    change (fill_trees false junk 2 (fun _ => true) ch 0 [t; t'] x0) with
      (pbind (if wanted 2 (routed (fun _ => true) ch 0) x0 then clt_sample false junk t (fun _ => 0%nat) 0 (routed (fun _ => true) ch 0) x0 else Ret x0)
        (fill_trees false junk 2 (fun _ => true) ch 1 [t'])).
    assert (RT : forall i f, routed (fun _ => true) ch i f = Nat.eqb (ch f) i) by (intros; unfold routed; apply andb_true_r).
    assert (WT : forall mask x, wanted 2 mask x = (mask 0%nat && match x 0%nat with None => true | Some _ => false end || (mask 1%nat && match x 1%nat with None => true | Some _ => false end))%bool)
      by (intros; unfold wanted; cbn; now rewrite orb_false_r).
    destruct (ch 0%nat) as [|[|c0]] eqn:E0; [| |lia]; (destruct (ch 1%nat) as [|[|c1]] eqn:E1; [| |lia]).
    - assert (wanted 2 (routed (fun _ => true) ch 0) x0 = true) as -> by (rewrite WT, !RT, E0; reflexivity).
      eapply expects_bind; [apply (both 0 t H0); [lia| |]; rewrite RT, ?E0, ?E1; reflexivity|]. intros x Hx. apply TAIL.
      assert (wanted 2 (routed (fun _ => true) ch 1) x = false) as -> by (rewrite WT, !RT, E0, E1; reflexivity). reflexivity.
    - assert (wanted 2 (routed (fun _ => true) ch 0) x0 = true) as -> by (rewrite WT, !RT, E0; reflexivity).
      replace (9 / 16) with (pp 0 0 * pp 1 1) by (unfold pp; cbn [Nat.eqb]; field).
      eapply expects_bind; [apply (first_one 0 t 0 (pp 1 1) H0); [lia|lia|]; rewrite RT, ?E0, ?E1; reflexivity|].
      intros x Hx. destruct (FILL _ _ Hx) as (z & -> & Hz). apply TAIL.
      assert (fill x0 (routed (fun _ => true) ch 0) z 0%nat = Some (INR (z 0%nat))) as X0 by (unfold fill, x0; rewrite RT, E0; reflexivity).
      assert (fill x0 (routed (fun _ => true) ch 0) z 1%nat = None) as X1 by (unfold fill, x0; rewrite RT, E1; reflexivity).
      assert (wanted 2 (routed (fun _ => true) ch 1) (fill x0 (routed (fun _ => true) ch 0) z) = true) as -> by (rewrite WT, X0, X1, !RT, E0, E1; reflexivity).
      apply (second_one 1 t' 0 (z 0%nat) _ H1); [lia|lia|apply Hz; lia| |exact X0|exact X1]. cbn [Nat.sub]. rewrite RT, E1. reflexivity.
    - assert (wanted 2 (routed (fun _ => true) ch 0) x0 = true) as -> by (rewrite WT, !RT, E0, E1; reflexivity).
      replace (1 / 16) with (pp 0 1 * pp 1 0) by (unfold pp; cbn [Nat.eqb]; field).
      eapply expects_bind; [apply (first_one 0 t 1 (pp 1 0) H0); [lia|lia|]; rewrite RT, ?E0, ?E1; reflexivity|].
      intros x Hx. destruct (FILL _ _ Hx) as (z & -> & Hz). apply TAIL.
      assert (fill x0 (routed (fun _ => true) ch 0) z 1%nat = Some (INR (z 1%nat))) as X0 by (unfold fill, x0; rewrite RT, E1; reflexivity).
      assert (fill x0 (routed (fun _ => true) ch 0) z 0%nat = None) as X1 by (unfold fill, x0; rewrite RT, E0; reflexivity).
      assert (wanted 2 (routed (fun _ => true) ch 1) (fill x0 (routed (fun _ => true) ch 0) z) = true) as -> by (rewrite WT, X0, X1, !RT, E0, E1; reflexivity).
      apply (second_one 1 t' 1 (z 1%nat) _ H1); [lia|lia|apply Hz; lia| |exact X0|exact X1]. cbn [Nat.sub]. rewrite RT, E0. reflexivity.
    - assert (wanted 2 (routed (fun _ => true) ch 0) x0 = false) as -> by (rewrite WT, !RT, E0, E1; reflexivity). cbn [pbind]. apply TAIL.
      assert (wanted 2 (routed (fun _ => true) ch 1) x0 = true) as -> by (rewrite WT, !RT, E0, E1; reflexivity).
      apply (both 1 t' H1); [lia| |]; rewrite RT, ?E0, ?E1; reflexivity.
  Qed.
  (** the density of that row *)
  Lemma dens2 : tree_mix 2 0 2 par2 raw2 (fun i => half i / bsum 2 half) [] (fun f => f) = 3 / 16.
  Proof.
    unfold tree_mix, half. cbn [bsum fsum]. rewrite !prob2 by lia. unfold pp. cbn [Nat.eqb]. field.
  Qed.
End Two.
