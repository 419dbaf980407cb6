(** Prim's algorithm yields a maximum spanning tree. *)
From Coq Require Import List Arith ZArith Bool Reals Lia Lra Permutation.
From Verif Require Import Base CircuitModel SampleModel CltModel CltSpec CltDfs CltElim.
Import ListNotations.
Local Open Scope R_scope.

(** *** links *)
Definition edge_in (E : list (nat * nat)) (u v : nat) : Prop := In (u, v) E \/ In (v, u) E.
Lemma linked_trans E u v x : linked E u v -> linked E v x -> linked E u x.
Proof. intros H1 H2. induction H2 as [|v a b _ IH]; [assumption|]. eapply l_step; [now apply IH|assumption]. Qed.
Lemma linked_edge E u v : edge_in E u v -> linked E u v.
Proof. intros H. eapply l_step; [apply l_refl|exact H]. Qed.
Lemma linked_sym E u v : linked E u v -> linked E v u.
Proof.
  induction 1 as [|u v x _ IH H]; [apply l_refl|]. eapply linked_trans; [|exact IH]. apply linked_edge.
  unfold edge_in. tauto.
Qed.
Lemma linked_map E E' : (forall u v, In (u, v) E -> linked E' u v) -> forall u v, linked E u v -> linked E' u v.
Proof.
  intros H u v L. induction L as [|u v x _ IH [Hi|Hi]]; [apply l_refl| |].
  - eapply linked_trans; [exact IH|]. now apply H.
  - eapply linked_trans; [exact IH|]. apply linked_sym. now apply H.
Qed.
Lemma linked_incl E E' : (forall e, In e E -> In e E') -> forall u v, linked E u v -> linked E' u v.
Proof. intros H. apply linked_map. intros u v Hi. apply linked_edge. left. now apply H. Qed.

(** dropping one edge *)
Lemma linked_drop E a b R u v : (forall e, In e E -> e = (a, b) \/ In e R) -> linked E u v ->
  linked R u v \/ linked R a v \/ linked R b v.
Proof.
  intros H L. induction L as [|u v x _ IH Hx]; [left; apply l_refl|].
  assert (forall u', linked R u' v -> (edge_in R v x -> linked R u' x)) as EX.
  { intros u' Hu He. eapply l_step; [exact Hu|exact He]. }
  assert (edge_in R v x \/ x = a \/ x = b) as C.
  { destruct Hx as [Hx|Hx]; destruct (H _ Hx) as [Eq|Hin].
    - injection Eq as -> ->. tauto. - left. left. assumption.
    - injection Eq as -> ->. tauto. - left. right. assumption. }
  destruct C as [C|[-> | ->]].
  - destruct IH as [IH|[IH|IH]]; auto.
  - right. left. apply l_refl.
  - right. right. apply l_refl.
Qed.

(** a path from inside [P] to outside crosses the cut *)
Lemma crossing0 (P : nat -> bool) E u v : linked E u v -> P u = true ->
  let Ein := filter (fun e => P (fst e) && P (snd e)) E in
  (P v = true /\ linked Ein u v) \/
  exists a b, edge_in E a b /\ P a = true /\ P b = false /\ linked Ein u a.
Proof.
  intros L Hu Ein. induction L as [u|u v x L IH He]; [left; split; [assumption|apply l_refl]|].
  destruct (IH Hu) as [[Hv Lv]|C]; [|now right]. destruct (P x) eqn:Ex.
  - left. split; [reflexivity|]. eapply l_step; [exact Lv|]. unfold Ein. rewrite !filter_In. cbn [fst snd]. rewrite Hv, Ex. cbn. tauto.
  - right. exists v, x. auto.
Qed.
Lemma crossing (P : nat -> bool) T R u v : (forall a b, In (a, b) T -> P a = true /\ P b = true) ->
  linked (T ++ R) u v -> P u = true -> P v = false ->
  exists a b e R', Permutation R (e :: R') /\ (e = (a, b) \/ e = (b, a)) /\ P a = true /\ P b = false /\ linked (T ++ R') u a.
Proof.
  intros HT L Hu Hv. destruct (crossing0 P (T ++ R) u v L Hu) as [[C _]|(a & b & He & Ha & Hb & La)]; [congruence|].
  assert (exists e, In e R /\ (e = (a, b) \/ e = (b, a))) as (e & Hin & Ee).
  { destruct He as [He|He]; rewrite in_app_iff in He; destruct He as [He|He].
    - apply HT in He. destruct He. congruence.
    - exists (a, b). auto.
    - apply HT in He. destruct He. congruence.
    - exists (b, a). auto. }
  destruct (in_split _ _ Hin) as (R1 & R2 & ->). exists a, b, e, (R1 ++ R2).
  split; [symmetry; apply Permutation_middle|]. split; [assumption|]. split; [assumption|]. split; [assumption|].
  eapply linked_incl; [|exact La]. intros f Hf. rewrite filter_In in Hf. destruct Hf as [Hf Hp].
  rewrite !in_app_iff in *. cbn in Hf. destruct Hf as [Hf|[Hf|[<-|Hf]]]; auto.
  exfalso. destruct Ee as [-> | ->]; cbn in Hp; rewrite Ha, Hb in Hp; discriminate.
Qed.

Lemma cut (P : nat -> bool) T u v : (forall a b, In (a, b) T -> P a = true /\ P b = true) -> P u = true -> P v = false ->
  forall n R, length R = n -> linked (T ++ R) u v ->
  exists a b e R', Permutation R (e :: R') /\ (e = (a, b) \/ e = (b, a)) /\ P a = true /\ P b = false /\
    linked (T ++ R') u a /\ linked (T ++ R') b v.
Proof.
  intros HT Hu Hv. induction n as [n IH] using lt_wf_ind. intros R HR L.
  destruct (crossing P T R u v HT L Hu Hv) as (a & b & e & R' & PM & Ee & Ha & Hb & La).
  assert (forall f, In f (T ++ R) -> f = (fst e, snd e) \/ In f (T ++ R')) as Hd.
  { intros f Hf. rewrite in_app_iff in *. destruct Hf as [Hf|Hf]; [auto|].
    apply (Permutation_in _ PM) in Hf. destruct Hf as [<-|Hf]; [left; now destruct e|auto]. }
  assert (linked (T ++ R') u v \/ linked (T ++ R') b v) as [C|C].
  { destruct (linked_drop _ _ _ _ _ _ Hd L) as [C|[C|C]]; [now left| |];
      destruct Ee as [-> | ->]; cbn [fst snd] in C; auto; left; eapply linked_trans; eauto. }
  - assert (length R = S (length R')) as LR by apply (Permutation_length PM).
    destruct (IH (length R') ltac:(lia) R' eq_refl C) as (a' & b' & e' & R2 & PM' & Ee' & Ha' & Hb' & L1 & L2).
    assert (forall f, In f (T ++ R2) -> In f (T ++ e :: R2)) as HI.
    { intros f Hf. rewrite in_app_iff in *. cbn. tauto. }
    exists a', b', e', (e :: R2). split; [|repeat split; auto].
    + rewrite PM, PM'. apply perm_swap.
    + exact (linked_incl _ _ HI _ _ L1).
    + exact (linked_incl _ _ HI _ _ L2).
  - exists a, b, e, R'. auto 10.
Qed.

Lemma weight_app w E1 E2 : weight w (E1 ++ E2) = weight w E1 + weight w E2.
Proof. unfold weight. rewrite map_app. apply lsumR_app. Qed.
Lemma weight_cons w e E : weight w (e :: E) = w (fst e) (snd e) + weight w E.
Proof. reflexivity. Qed.
Lemma weight_perm w E1 E2 : Permutation E1 E2 -> weight w E1 = weight w E2.
Proof. unfold weight. induction 1; cbn in *; lra. Qed.

(** *** the algorithm *)
Section Prim.
  Variables (F : nat) (w : nat -> nat -> R) (root : nat).
  Hypothesis sym : forall i j, w i j = w j i.
  Hypothesis root_lt : (root < F)%nat.

  Record pinv (s : prim_state) (V : list nat) (T : list (nat * nat)) : Prop := mkPinv {
    p_nodup : NoDup V;
    p_range : forall v, In v V -> (v < F)%nat;
    p_root : In root V;
    p_in : forall j, pr_in s j = true <-> In j V;
    p_cand : forall j, (j < F)%nat -> ~ In j V -> exists p, In p V /\ pr_p s j = Z.of_nat p /\ pr_w s j = Fin (w p j) /\
      forall u, In u V -> w u j <= w p j;
    p_ord : forall A v B, V = A ++ v :: B -> v = root \/ exists p, In p B /\ pr_par s v = Z.of_nat p;
    p_edges : forall p v, In (p, v) T <-> In v V /\ v <> root /\ pr_par s v = Z.of_nat p;
    p_ends : forall p v, In (p, v) T -> In p V /\ In v V;
    p_tnodup : NoDup T;
    p_count : S (length T) = length V;
    p_link : forall v, In v V -> linked T root v;
    p_max : forall E, spanning F E -> exists R, spanning F (T ++ R) /\ weight w E <= weight w (T ++ R) }.

  Lemma pinv0 : pinv (prim_init w root) [root] [].
  Proof.
    split; cbn.
    - repeat constructor. intros [].
    - intros v [<-|[]]. assumption.
    - now left.
    - intros j. rewrite Nat.eqb_eq. split; [intros ->; now left|intros [->|[]]; reflexivity].
    - intros j Hj N. exists root. split; [now left|]. assert (j <> root) as Ne by (intros ->; apply N; now left).
      unfold setf. destruct (Nat.eqb_spec j root); [contradiction|]. repeat split.
      intros u [<-|[]]. lra.
    - intros A v B E. left. destruct A as [|? [|? ?]]; [|discriminate|discriminate]. now injection E.
    - intros p v. split; [intros []|]. intros ([->|[]] & Ne & _). now apply Ne.
    - intros p v [].
    - constructor.
    - reflexivity.
    - intros v [<-|[]]. apply l_refl.
    - intros E HE. exists E. split; [exact HE|apply Rle_refl].
  Qed.

  Lemma pinv_step s V T : pinv s V T -> (length V < F)%nat ->
    exists s' v T', prim_step F w s = Ok s' /\ pinv s' (v :: V) T'.
  Proof.
    intros [Nd Ra Ro In_ Ca Or Ed En Tn Co Li Ma] Hlen.
    (* an unvisited node *)
    assert (exists j, (j < F)%nat /\ ~ In j V) as (j0 & Hj0 & Nj0).
    { destruct (in_dec (fun a b : bool => ltac:(decide equality)) false (map (pr_in s) (seq 0 F))) as [H|H].
      - apply in_map_iff in H. destruct H as (j & Ej & Hj). exists j. rewrite in_seq in Hj. split; [lia|].
        rewrite <- In_. congruence.
      - exfalso. assert (incl (seq 0 F) V) as I.
        { intros j Hj. rewrite <- In_. destruct (pr_in s j) eqn:Ej; [reflexivity|]. exfalso. apply H. rewrite <- Ej. now apply in_map. }
        apply NoDup_incl_length in I; [|apply seq_NoDup]. rewrite seq_length in I. lia. }
    set (cand j := if pr_in s j then NInf else pr_w s j).
    assert (F > 0)%nat as HF by lia.
    set (v := argmax F cand).
    assert (pr_in s j0 = false) as Pj0.
    { destruct (pr_in s j0) eqn:E; [|reflexivity]. now apply In_ in E. }
    assert (exists z, cand v = Fin z) as (z & Ez).
    { destruct (Ca j0 Hj0 Nj0) as (p & _ & _ & Ew & _). pose proof (argmax_max F cand j0 Hj0) as M. fold v in M.
      unfold cand at 1 in M. rewrite Pj0, Ew in M. cbn in M. pose proof (exp_pos (w p j0)) as Ep.
      destruct (cand v) as [|z]; [cbn in M; lra|eauto]. }
    assert (v < F)%nat as Hv by (now apply argmax_lt).
    assert (pr_in s v = false) as Pv.
    { unfold cand in Ez. destruct (pr_in s v); [discriminate|reflexivity]. }
    assert (~ In v V) as Nv by (rewrite <- In_; congruence).
    destruct (Ca v Hv Nv) as (p & Hp & Ep & Ew & Hmax).
    (* every crossing edge is at most the chosen one *)
    assert (forall a b, In a V -> (b < F)%nat -> ~ In b V -> w a b <= w p v) as Best.
    { intros a b Ha Hb Nb. destruct (Ca b Hb Nb) as (p' & _ & _ & Ew' & Hm'). specialize (Hm' a Ha).
      pose proof (argmax_max F cand b Hb) as M. fold v in M. unfold cand in M. rewrite Pv, Ew in M.
      assert (pr_in s b = false) as Pb. { destruct (pr_in s b) eqn:E; [|reflexivity]. now apply In_ in E. }
      rewrite Pb, Ew' in M. cbn in M. destruct (Rle_lt_dec (w p' b) (w p v)) as [|Hlt]; [lra|]. apply exp_increasing in Hlt. lra. }
    assert (v <> root) as Nvr by (intros E; rewrite E in Nv; contradiction).
    set (inn := setf (pr_in s) v true).
    set (improved := fun j => negb (inn j) && llt (pr_w s j) (Fin (w v j))).
    exists (mkPrim inn (fun j => if improved j then Fin (w v j) else pr_w s j)
            (fun j => if improved j then Z.of_nat v else pr_p s j) (setf (pr_par s) v (pr_p s v))), v, ((p, v) :: T). split.
    { transitivity (match cand v with NInf => Err | Fin _ => Ok (mkPrim inn (fun j => if improved j then Fin (w v j) else pr_w s j)
            (fun j => if improved j then Z.of_nat v else pr_p s j) (setf (pr_par s) v (pr_p s v))) end); [reflexivity|].
      now rewrite Ez. }
    unfold improved, inn.
    split; cbn [pr_in pr_w pr_p pr_par].
    - now constructor.
    - intros u [<-|Hu]; auto.
    - now right.
    - intros j. unfold setf. destruct (Nat.eqb_spec j v) as [->|Ne]; [split; auto; intros _; now left|].
      rewrite In_. split; [now right|]. intros [?|?]; [congruence|assumption].
    - intros j Hj Nj. assert (j <> v) as Ne by (intros ->; apply Nj; now left).
      assert (~ In j V) as NjV by (intros H; apply Nj; now right).
      unfold setf. destruct (Nat.eqb_spec j v); [contradiction|].
      assert (pr_in s j = false) as Pj. { destruct (pr_in s j) eqn:E; [|reflexivity]. now apply In_ in E. }
      rewrite Pj. cbn [negb andb]. destruct (Ca j Hj NjV) as (p' & Hp' & Ep' & Ew' & Hm'). rewrite Ew'. cbn [llt].
      destruct (Rlt_dec (w p' j) (w v j)) as [L|L].
      + exists v. split; [now left|]. split; [reflexivity|]. split; [reflexivity|]. intros u [<-|Hu]; [lra|]. specialize (Hm' u Hu). lra.
      + exists p'. split; [now right|]. split; [assumption|]. split; [reflexivity|]. intros u [<-|Hu]; [lra|]. now apply Hm'.
    - intros A u B EQ. destruct A as [|a A]; cbn in EQ.
      + injection EQ as <- <-. right. exists p. split; [assumption|]. unfold setf. now rewrite Nat.eqb_refl.
      + injection EQ as <- EQ. destruct (Or A u B EQ) as [->|(p' & Hp' & Ep')]; [now left|right]. exists p'.
        split; [assumption|]. unfold setf. destruct (Nat.eqb_spec u v) as [->|]; [|assumption].
        exfalso. apply Nv. rewrite EQ. apply in_elt.
    - intros p' u. cbn [In]. rewrite Ed. unfold setf. destruct (Nat.eqb_spec u v) as [->|Ne].
      + split.
        * intros [[= ->]|(Hu & _)]; [auto|contradiction].
        * intros (_ & _ & E). left. f_equal. rewrite Ep in E. lia.
      + split.
        * intros [[= -> ->]|(H1 & H2 & H3)]; [congruence|auto].
        * intros ([H|H] & H2 & H3); [congruence|auto].
    - intros p' u [[= <- <-]|H]; [auto with datatypes|]. destruct (En _ _ H). auto with datatypes.
    - constructor; [|assumption]. intros H. apply En in H. tauto.
    - cbn. now rewrite Co.
    - assert (forall u, linked T root u -> linked ((p, v) :: T) root u) as Up.
      { intros u. apply linked_incl. intros e He. now right. }
      intros u [<-|Hu]; [|now apply Up, Li]. eapply l_step; [apply Up, Li, Hp|]. left. now left.
    - intros E HE. destruct (Ma E HE) as (R & HR & WR).
      destruct HR as (Rg & Cn & Ct).
      destruct (cut (pr_in s) T p v) with (n := length R) (R := R) as (a & b & e & R' & PM & Ee & Ha & Hb & La & Lb).
      + intros a b Hab. rewrite !In_. now apply En in Hab.
      + now apply In_.
      + assumption.
      + reflexivity.
      + apply Cn; auto.
      + exists R'.
        assert (In a V) as HaV by now apply In_.
        assert (~ In b V) as HbV by (rewrite <- In_; congruence).
        assert (forall x y, In (x, y) (T ++ R) <-> In (x, y) T \/ e = (x, y) \/ In (x, y) R') as EI.
        { intros x y. rewrite in_app_iff. split; (intros [H|H]; [now left|right]).
          - apply (Permutation_in _ PM) in H. exact H.
          - apply (Permutation_in _ (Permutation_sym PM)). exact H. }
        assert (b < F)%nat as HbF.
        { destruct Ee as [Ee|Ee]; [apply (Rg a b)|apply (Rg b a)]; apply EI; right; left; assumption. }
        assert (forall x y, linked (T ++ R') x y -> linked (((p, v) :: T) ++ R') x y) as Up.
        { intros x y. apply linked_incl. intros f Hf. right. exact Hf. }
        assert (linked (((p, v) :: T) ++ R') a b) as Lab.
        { eapply linked_trans; [apply linked_sym, Up, La|]. eapply linked_trans; [|apply linked_sym, Up, Lb].
          apply linked_edge. left. now left. }
        split; [split; [|split]|].
        * intros x y [[= <- <-]|H]; [auto|]. apply (Rg x y). apply EI. fold (app T R') in H. rewrite in_app_iff in H. tauto.
        * intros x y Hx Hy. apply (linked_map (T ++ R)); [|now apply Cn]. intros x' y' Hxy. apply EI in Hxy.
          destruct Hxy as [H|[H|H]].
          -- apply linked_edge. left. right. rewrite in_app_iff. now left.
          -- destruct Ee as [-> | ->]; injection H as <- <-; [assumption|now apply linked_sym].
          -- apply linked_edge. left. right. rewrite in_app_iff. now right.
        * rewrite <- Ct. cbn. f_equal. rewrite !app_length. rewrite (Permutation_length PM). cbn. lia.
        * eapply Rle_trans; [exact WR|]. cbn [app]. rewrite weight_cons, !weight_app, (weight_perm w R _ PM), weight_cons. cbn [fst snd].
          assert (w (fst e) (snd e) <= w p v) as We.
          { destruct Ee as [-> | ->]; cbn [fst snd]; [|rewrite sym]; now apply Best. }
          lra.
  Qed.
  Lemma loop_inv n : forall s V T, pinv s V T -> (length V + n <= F)%nat ->
    exists s' V' T', prim_loop n F w s = Ok s' /\ pinv s' V' T' /\ length V' = (length V + n)%nat.
  Proof.
    induction n as [|n IH]; intros s V T I L.
    - exists s, V, T. split; [reflexivity|]. split; [assumption|lia].
    - destruct (pinv_step s V T I ltac:(lia)) as (s1 & v & T1 & E1 & I1).
      destruct (IH s1 (v :: V) T1 I1) as (s' & V' & T' & E' & I' & L'); [cbn; lia|].
      exists s', V', T'. cbn [prim_loop]. rewrite E1. cbn [bind]. split; [assumption|]. split; [assumption|]. cbn in L'. lia.
  Qed.

  Lemma nth_map_seq (f : nat -> Z) i : (i < F)%nat -> nth i (map f (seq 0 F)) (-1)%Z = f i.
  Proof. intros Hi. rewrite (nth_indep _ _ (f 0%nat)) by (rewrite map_length, seq_length; lia). rewrite map_nth, seq_nth by lia. reflexivity. Qed.

  Theorem prim_spec : exists parents, prim F w root = Ok parents /\ length parents = F /\ rooted_tree parents root /\
    spanning F (tree_edges parents) /\
    forall E, spanning F E -> weight w E <= weight w (tree_edges parents).
  Proof.
    destruct (loop_inv (F - 1) _ _ _ pinv0) as (s & V & T & E & I & L); [cbn; lia|].
    cbn in L. assert (length V = F) as LV by lia.
    set (f := setf (pr_par s) root (-1)%Z). set (parents := map f (seq 0 F)).
    assert (length parents = F) as LP by (unfold parents; now rewrite map_length, seq_length).
    pose proof I as [Nd Ra Ro In_ Ca Or Ed En Tn Co Li Ma].
    assert (forall v, In v V <-> (v < F)%nat) as HV.
    { intros v. split; [apply Ra|]. intros Hv. 
      assert (incl (seq 0 F) V) as I2; [|apply I2, in_seq; lia].
      apply (@NoDup_length_incl _ V (seq 0 F) Nd); [rewrite seq_length; lia|].
      intros u Hu. apply in_seq. specialize (Ra u Hu). lia. }
    assert (forall v, (v < F)%nat -> v <> root -> exists p, (p < F)%nat /\ pr_par s v = Z.of_nat p) as Par.
    { intros v Hv Ne. destruct (in_split v V (proj2 (HV v) Hv)) as (A & B & EV).
      destruct (Or A v B EV) as [?|(p & Hp & Ep)]; [contradiction|]. exists p. split; [|assumption].
      apply HV. rewrite EV, in_app_iff. right. now right. }
    assert (forall v, (v < F)%nat -> v <> root -> nth v parents (-1)%Z = pr_par s v) as Np.
    { intros v Hv Ne. unfold parents. rewrite nth_map_seq by assumption. unfold f, setf. destruct (Nat.eqb_spec v root); [contradiction|reflexivity]. }
    assert (nth root parents (-1)%Z = (-1)%Z) as Nr.
    { unfold parents. rewrite nth_map_seq by assumption. unfold f, setf. now rewrite Nat.eqb_refl. }
    assert (Permutation (tree_edges parents) T) as PT.
    { assert (forall e, In e (tree_edges parents) <-> In e T) as EQ.
      { intros [p v]. rewrite Ed, HV. unfold tree_edges. rewrite in_flat_map. rewrite LP. split.
        - intros (i & Hi & Hin). apply in_seq in Hi. destruct (Z.eqb_spec (nth i parents (-1)%Z) (-1)) as [Ei|Ei]; [destruct Hin|].
          destruct Hin as [[= <- <-]|[]]. assert (i <> root) as Ne by congruence. rewrite Np in * by (lia || assumption).
          destruct (Par i ltac:(lia) Ne) as (p & Hp & Ep). rewrite Ep, Nat2Z.id. repeat split; auto; lia.
        - intros (Hv & Ne & Ep). exists v. split; [apply in_seq; lia|]. rewrite Np by assumption. rewrite Ep.
          destruct (Z.eqb_spec (Z.of_nat p) (-1)); [lia|]. rewrite Nat2Z.id. now left. }
      apply NoDup_Permutation; [|assumption|assumption].
      unfold tree_edges. generalize (seq_NoDup (length parents) 0). induction (seq 0 (length parents)) as [|i l IH]; intros N; [constructor|].
      apply NoDup_cons_iff in N. destruct N as [Ni N]. cbn [flat_map]. destruct (Z.eqb _ _); [now apply IH|].
      cbn [app]. constructor; [|now apply IH]. intros H. apply in_flat_map in H. destruct H as (j & Hj & Hin).
      destruct (Z.eqb _ _); [destruct Hin|]. destruct Hin as [[= _ <-]|[]]. contradiction. }
    exists parents. split; [|split; [assumption|]].
    { unfold prim. destruct (Nat.eqb_spec F 0); [lia|]. destruct (Nat.ltb_spec root F); [|lia]. cbn [negb].
      rewrite E. reflexivity. }
    split; [|split].
    - split; [lia|]. split; [assumption|]. rewrite LP. split.
      + intros i Hi Ei. destruct (Nat.eq_dec i root) as [|Ne]; [assumption|]. rewrite Np in Ei by assumption.
        destruct (Par i Hi Ne) as (p & _ & Ep). rewrite Ep in Ei. lia.
      + assert (forall B A, V = A ++ B -> forall v, In v B -> reaches parents root v) as RE.
        { induction B as [|b B IH]; intros A EV v [].
          - subst b. destruct (Nat.eq_dec v root) as [->|Ne]; [constructor|].
            assert (v < F)%nat as Hv by (apply HV; rewrite EV; apply in_elt).
            destruct (Or A v B EV) as [?|(p & Hp & Ep)]; [contradiction|].
            assert (p < F)%nat as HpF by (apply HV; rewrite EV, in_app_iff; right; now right).
            apply (reach_step _ _ v p); [lia|lia|now rewrite Np|].
            apply (IH (A ++ [v])); [|assumption]. now rewrite <- app_assoc.
          - apply (IH (A ++ [b])); [|assumption]. now rewrite <- app_assoc. }
        intros i Hi. apply (RE V []); [reflexivity|]. now apply HV.
    - split; [|split].
      + intros u v Huv. apply (Permutation_in _ PT) in Huv. apply En in Huv. destruct Huv. split; now apply HV.
      + intros u v Hu Hv. apply (linked_incl T); [intros e; apply (Permutation_in _ (Permutation_sym PT))|].
        eapply linked_trans; [apply linked_sym|]; apply Li, HV; assumption.
      + rewrite (Permutation_length PT). lia.
    - intros E0 HE. destruct (Ma E0 HE) as (R' & (_ & _ & Ct) & WR). rewrite (weight_perm _ _ _ PT).
      rewrite app_length in Ct. destruct R' as [|? ?]; [now rewrite app_nil_r in WR|]. cbn in Ct. lia.
  Qed.
End Prim.
