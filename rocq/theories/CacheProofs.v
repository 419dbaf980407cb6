From Coq Require Import List Arith Bool Lia.
From Verif Require Import Base ScopeModel CircuitModel CacheModel.
Import ListNotations.
Local Open Scope R_scope.

Lemma circuits_snoc g n : circuits (g ++ [n]) = circuits g ++ [denote (circuits g) n].
Proof. unfold circuits. now rewrite fold_left_app. Qed.

Lemma circuits_length g : length (circuits g) = length g.
Proof.
  induction g as [|n g IH] using rev_ind; [reflexivity|]. rewrite circuits_snoc, !app_length, IH. reflexivity.
Qed.

Lemma denote_ext ms ms' n : (forall c, In c (kids n) -> nth c ms no_module = nth c ms' no_module) -> denote ms n = denote ms' n.
Proof.
  destruct n; cbn; intros H; try (rewrite H by auto; reflexivity); try reflexivity.
  f_equal. apply map_ext_in. auto.
Qed.

Lemma ordered_snoc g n : ordered (g ++ [n]) -> ordered g /\ forall c, In c (kids n) -> (c < length g)%nat.
Proof.
  intros O. split.
  - intros i Hi c Hc. apply (O i); [rewrite app_length; lia|]. rewrite app_nth1 by assumption. exact Hc.
  - intros c Hc. apply (O (length g)); [rewrite app_length; cbn; lia|].
    rewrite app_nth2, Nat.sub_diag by lia. exact Hc.
Qed.

Lemma circuits_nth g i : ordered g -> (i < length g)%nat ->
  nth i (circuits g) no_module = denote (circuits g) (nth i g no_node).
Proof.
  induction g as [|n g IH] using rev_ind; intros O Hi; [cbn in Hi; lia|].
  destruct (ordered_snoc _ _ O) as [O' K].
  rewrite app_length in Hi. cbn in Hi. rewrite circuits_snoc.
  assert (forall c, (c < length g)%nat -> nth c (circuits g) no_module = nth c (circuits g ++ [denote (circuits g) n]) no_module) as E.
  { intros c Hc. rewrite app_nth1; [reflexivity|]. now rewrite circuits_length. }
  destruct (Nat.eq_dec i (length g)) as [->|N].
  - rewrite !app_nth2 by (rewrite ?circuits_length; lia). rewrite circuits_length, Nat.sub_diag. cbn.
    apply denote_ext. intros c Hc. apply E. now apply K.
  - rewrite <- E by lia. rewrite app_nth1 by lia. rewrite IH by (auto; lia). apply denote_ext.
    intros c Hc. apply E. apply O' in Hc; lia.
Qed.

Lemma combine_map {A B C} (f : A -> B) (h : A -> C) l : combine (map f l) (map h l) = map (fun a => (f a, h a)) l.
Proof. induction l; cbn; congruence. Qed.

Lemma NoDup_app2 {A} (l1 l2 : list A) : NoDup l1 -> NoDup l2 -> (forall a, In a l1 -> ~ In a l2) -> NoDup (l1 ++ l2).
Proof.
  induction l1 as [|a l1 IH]; cbn; intros N1 N2 DJ; [exact N2|]. inversion N1; subst. constructor.
  - rewrite in_app_iff. intros [H|H]; [contradiction|]. apply (DJ a); auto.
  - apply IH; auto.
Qed.

Section Correct.
Variables (g : list node) (x : row).
Hypothesis O : ordered g.
Let ms := circuits g.
Let val (i : nat) : tensor := loglik (nth i ms no_module) x.

Lemma body_val i : (i < length g)%nat -> body ms x (nth i g no_node) (map val (kids (nth i g no_node))) = val i.
Proof.
  intros Hi. unfold val at 2, ms at 2. rewrite (circuits_nth g i O Hi). fold ms.
  destruct (nth i g no_node) as [l|c co rr lg|d2 sc cs|c]; cbn [kids map body hd denote].
  - reflexivity.
  - reflexivity.
  - unfold loglik. cbn [evalm]. rewrite combine_map, map_map. reflexivity.
  - reflexivity.
Qed.

(** every entry of the cache is right *)
Definition sound (c : cache) : Prop := forall i v, get c i = Some v -> v = val i.

Lemma get_set c i v j : get (set c i v) j = if Nat.eqb j i then Some v else get c j.
Proof. reflexivity. Qed.

(** what a call does to the cache: only adds the traced objects, all of which
    were absent *)
Definition adds (c c' : cache) (tr : list nat) : Prop :=
  NoDup tr /\ (forall i, In i tr -> get c i = None) /\
  (forall i, get c' i = None <-> get c i = None /\ ~ In i tr) /\ (forall i v, get c i = Some v -> get c' i = Some v).

Lemma adds_refl c : adds c c [].
Proof. split; [constructor|]. split; [intros i []|]. split; [cbn; tauto|auto]. Qed.

Lemma adds_trans c1 c2 c3 t1 t2 : adds c1 c2 t1 -> adds c2 c3 t2 -> adds c1 c3 (t1 ++ t2).
Proof.
  intros (N1 & A1 & B1 & G1) (N2 & A2 & B2 & G2). repeat split.
  - apply NoDup_app2; auto. intros i H1 H2. apply A2 in H2. apply B1 in H2. tauto.
  - intros i Hi. apply in_app_iff in Hi. destruct Hi as [Hi|Hi]; [now apply A1|]. apply A2 in Hi. now apply B1 in Hi.
  - apply B2 in H. destruct H as [H _]. now apply B1 in H.
  - apply B2 in H. destruct H as [H H']. apply B1 in H. rewrite in_app_iff. tauto.
  - intros (H & H'). apply B2. rewrite in_app_iff in H'. split; [apply B1; tauto|tauto].
  - intros i v H. now apply G2, G1.
Qed.

Lemma call_spec : forall fuel c i, (i < fuel)%nat -> (i < length g)%nat -> sound c ->
  exists c' tr, call g ms x fuel c i = (val i, c', tr) /\ sound c' /\ adds c c' tr /\
    get c' i = Some (val i) /\ (forall j, In j tr -> (j <= i)%nat).
Proof.
  induction fuel as [|k IH]; intros c i Hk Hi Hs; [lia|].
  cbn [call]. destruct (get c i) as [v|] eqn:EG.
  - pose proof (Hs _ _ EG) as ->. exists c, []. split; [reflexivity|]. split; [exact Hs|]. split; [apply adds_refl|]. split; [exact EG|]. intros j [].
  - set (args := fix args (l : list nat) (c0 : cache) : list tensor * cache * list nat :=
        match l with [] => ([], c0, []) | j :: r => let '(v, c1, t1) := call g ms x k c0 j in let '(vs, c2, t2) := args r c1 in (v :: vs, c2, t1 ++ t2) end).
    assert (forall l c, (forall j, In j l -> (j < i)%nat) -> sound c ->
      exists c' tr, args l c = (map val l, c', tr) /\ sound c' /\ adds c c' tr /\ (forall j, In j tr -> (j < i)%nat)) as HA.
    { induction l as [|j l IHl]; intros c0 Hl Hs0.
      - exists c0, []. split; [reflexivity|]. split; [exact Hs0|]. split; [apply adds_refl|]. intros j [].
      - assert (j < i)%nat as Hj by (apply Hl; now left).
        destruct (IH c0 j ltac:(lia) ltac:(lia) Hs0) as (c1 & t1 & E1 & S1 & A1 & _ & L1).
        destruct (IHl c1 (fun j' Hj' => Hl j' (or_intror Hj')) S1) as (c2 & t2 & E2 & S2 & A2 & L2).
        exists c2, (t1 ++ t2). cbn [args]. rewrite E1. fold args. rewrite E2. split; [reflexivity|]. split; [exact S2|].
        split; [eapply adds_trans; eauto|]. intros j' Hj'. apply in_app_iff in Hj'. destruct Hj' as [Hj'|Hj'].
        + apply L1 in Hj'. lia.
        + now apply L2. }
    destruct (HA (kids (nth i g no_node)) c (O i Hi) Hs) as (c' & tr & E & S' & A & L). rewrite E.
    rewrite body_val by assumption. exists (set c' i (val i)), (tr ++ [i]).
    assert (~ In i tr) as Hn by (intros H; apply L in H; lia).
    split; [reflexivity|]. split; [|split; [|split]].
    + intros j v. rewrite get_set. destruct (Nat.eqb_spec j i) as [->|]; [congruence|apply S'].
    + eapply adds_trans; [exact A|]. repeat split.
      * constructor; [intros []|constructor].
      * intros j [<-|[]]. destruct A as (_ & _ & B & _). apply B. auto.
      * rewrite get_set in H. destruct (Nat.eqb_spec i0 i); [discriminate|exact H].
      * rewrite get_set in H. destruct (Nat.eqb_spec i0 i); [discriminate|]. intros [<-|[]]. congruence.
      * intros [H1 H2]. rewrite get_set. destruct (Nat.eqb_spec i0 i) as [->|]; [exfalso; apply H2; now left|exact H1].
      * intros j v H. rewrite get_set. destruct (Nat.eqb_spec j i) as [->|]; [|exact H].
        assert (get c' i = None) as C by (destruct A as (_ & _ & B & _); apply B; auto). congruence.
    + rewrite get_set, Nat.eqb_refl. reflexivity.
    + intros j Hj. apply in_app_iff in Hj. destruct Hj as [Hj|[<-|[]]]; [apply L in Hj|]; lia.
Qed.
End Correct.

Lemma c13 g x i : ordered g -> (i < length g)%nat ->
  exists c tr, log_likelihood g x [] i = (loglik (nth i (circuits g) no_module) x, c, tr) /\ NoDup tr.
Proof.
  intros O Hi. destruct (call_spec g x O (S i) [] i ltac:(lia) Hi) as (c & tr & E & _ & (N & _) & _).
  - intros j v H. discriminate.
  - eauto.
Qed.

Lemma c13_shared g x i j : ordered g -> (i < length g)%nat -> (j < length g)%nat ->
  forall v c tr, log_likelihood g x [] i = (v, c, tr) ->
  exists c' tr', log_likelihood g x c j = (loglik (nth j (circuits g) no_module) x, c', tr') /\ NoDup (tr ++ tr').
Proof.
  intros O Hi Hj v c tr E.
  destruct (call_spec g x O (S i) [] i ltac:(lia) Hi) as (c1 & tr1 & E1 & S1 & A1 & _).
  { intros k w H. discriminate. }
  unfold log_likelihood in *. rewrite E1 in E. injection E as <- <- <-.
  destruct (call_spec g x O (S j) c1 j ltac:(lia) Hj S1) as (c2 & tr2 & E2 & _ & A2 & _).
  exists c2, tr2. split; [exact E2|]. assert (adds [] c2 (tr1 ++ tr2)) as A by (eapply adds_trans; eauto). apply A.
Qed.

Lemma c14_stale g x x' i : ordered g -> (i < length g)%nat ->
  forall v c tr, log_likelihood g x [] i = (v, c, tr) ->
  log_likelihood g x' c i = (loglik (nth i (circuits g) no_module) x, c, []).
Proof.
  intros O Hi v c tr E.
  destruct (call_spec g x O (S i) [] i ltac:(lia) Hi) as (c1 & tr1 & E1 & S1 & A1 & G & _).
  { intros k w H. discriminate. }
  unfold log_likelihood in *. rewrite E1 in E. injection E as <- <- <-. cbn [call]. rewrite G. reflexivity.
Qed.
