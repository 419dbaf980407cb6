From Coq Require Import List Arith Bool Lia Permutation.
From Verif Require Import Base StatsModel StatsSpec.
Import ListNotations.

Lemma exb_In n l : existsb (Nat.eqb n) l = true <-> In n l.
Proof.
  rewrite existsb_exists. split; [intros (x & Hx & E); apply Nat.eqb_eq in E; now subst|]. intros H. exists n. split; [assumption|apply Nat.eqb_refl].
Qed.
Lemma exb_false n l : existsb (Nat.eqb n) l = false <-> ~ In n l.
Proof. rewrite <- exb_In. destruct (existsb _ _); split; congruence || tauto. Qed.

Section Walk.
Variables (G : heap) (N root : nat).
Hypothesis Hroot : root < N.
Hypothesis Hclosed : forall n c, n < N -> In c (children G n) -> c < N.

Definition wt (vis : list nat) (m : nat) : nat := if existsb (Nat.eqb m) vis then 0 else length (children G m).
Definition U (vis : list nat) : nat := list_sum (map (wt vis) (seq 0 N)).
Lemma lsum_cons (f : nat -> nat) x l : list_sum (map f (x :: l)) = f x + list_sum (map f l).
Proof. reflexivity. Qed.
Lemma U_step l vis n : NoDup l -> In n l -> ~ In n vis ->
  list_sum (map (wt (n :: vis)) l) + length (children G n) = list_sum (map (wt vis) l).
Proof.
  intros ND Hn Hv. induction ND as [|x l Hx ND IH]; [destruct Hn|].
  rewrite !lsum_cons. destruct (Nat.eqb_spec x n) as [->|Nx].
  - unfold wt at 1 3. cbn [existsb]. rewrite Nat.eqb_refl. cbn [orb].
    replace (existsb (Nat.eqb n) vis) with false by (symmetry; now apply exb_false).
    assert (forall m, In m l -> wt (n :: vis) m = wt vis m) as E.
    { intros m Hm. unfold wt. cbn [existsb]. destruct (Nat.eqb_spec m n) as [->|]; [contradiction|reflexivity]. }
    rewrite (map_ext_in _ _ l E). lia.
  - destruct Hn as [->|Hn]; [congruence|]. specialize (IH Hn). unfold wt at 1 3. cbn [existsb].
    apply Nat.eqb_neq in Nx. rewrite Nx. cbn [orb]. lia.
Qed.

Lemma filter_len {A} (f : A -> bool) l : length (filter f l) <= length l.
Proof. induction l as [|x l IH]; cbn; [lia|]. destruct (f x); cbn; lia. Qed.

Lemma walk_inv fuel : forall stack vis edges refs, length stack + U vis <= fuel ->
  NoDup vis -> (forall n, In n stack \/ In n vis -> reach G root n /\ n < N) ->
  (forall n c, In n vis -> In c (children G n) -> In c vis \/ In c stack) ->
  refs = flat_map (children G) (rev vis) -> edges = length refs ->
  exists vis', walk G fuel stack vis edges refs = (vis', length (flat_map (children G) (rev vis')), flat_map (children G) (rev vis')) /\
    NoDup vis' /\ (forall n, In n vis' -> reach G root n) /\ (forall n, In n vis \/ In n stack -> In n vis') /\
    (forall n c, In n vis' -> In c (children G n) -> In c vis').
Proof.
  induction fuel as [|fuel IH]; intros stack vis edges refs F ND R C -> ->.
  - assert (stack = []) as -> by (destruct stack; [reflexivity|cbn in F; lia]). cbn [walk].
    exists vis. split; [reflexivity|]. split; [assumption|]. split; [intros n Hn; now apply R; auto|].
    split; [intros n [H|[]]; exact H|]. intros n c Hn Hc. destruct (C n c Hn Hc) as [H|[]]. exact H.
  - destruct stack as [|n rest]; cbn [walk].
    + exists vis. split; [reflexivity|]. split; [assumption|]. split; [intros n Hn; now apply R; auto|].
      split; [intros n [H|[]]; exact H|]. intros n c Hn Hc. destruct (C n c Hn Hc) as [H|[]]. exact H.
    + cbn [length] in F. destruct (existsb (Nat.eqb n) vis) eqn:E.
      * apply exb_In in E. destruct (IH rest vis (length (flat_map (children G) (rev vis))) (flat_map (children G) (rev vis))) as (vis' & A1 & A2 & A3 & A4 & A5); auto.
        { lia. }
        { intros m [H|H]; apply R; cbn; auto. }
        { intros m c Hm Hc. destruct (C m c Hm Hc) as [H|[<-|H]]; auto. }
        exists vis'. split; [exact A1|]. split; [assumption|]. split; [assumption|]. split; [|assumption].
        intros m [H|[<-|H]]; auto.
      * apply exb_false in E. assert (reach G root n /\ n < N) as [Rn Ln] by (apply R; cbn; auto).
        set (new := filter (fun c => negb (existsb (Nat.eqb c) (n :: vis))) (children G n)).
        destruct (IH (rev new ++ rest) (n :: vis) (length (flat_map (children G) (rev vis)) + length (children G n)) (flat_map (children G) (rev vis) ++ children G n))
          as (vis' & A1 & A2 & A3 & A4 & A5).
        { rewrite app_length, rev_length. pose proof (filter_len (fun c => negb (existsb (Nat.eqb c) (n :: vis))) (children G n)) as L. fold new in L.
          pose proof (U_step (seq 0 N) vis n (seq_NoDup N 0)) as S. rewrite in_seq in S. specialize (S ltac:(lia) E). unfold U in *. lia. }
        { constructor; assumption. }
        { intros m. rewrite in_app_iff, <- in_rev. intros [[H|H]|[<-|H]]; [|apply R; cbn; auto|auto|apply R; auto].
          apply filter_In in H. destruct H as [H _]. split; [econstructor; eauto|eauto]. }
        { intros m c [<-|Hm] Hc.
          - destruct (existsb (Nat.eqb c) (n :: vis)) eqn:Q; [left; now apply exb_In|].
            right. apply in_app_iff. left. apply in_rev. rewrite rev_involutive. apply filter_In. now rewrite Q.
          - destruct (C m c Hm Hc) as [H|[<-|H]]; cbn; auto. right. apply in_app_iff. auto. }
        { cbn [rev]. now rewrite flat_map_app, (eq_refl : flat_map (children G) [n] = children G n ++ []), app_nil_r. }
        { now rewrite app_length. }
        exists vis'. split; [exact A1|]. split; [assumption|]. split; [assumption|]. split; [|assumption].
        intros m [H|[<-|H]]; apply A4; cbn; auto. right. apply in_app_iff. auto.
Qed.

Lemma walk_spec : exists vis, walk G (walk_fuel G N) [root] [] 0 [] = (vis, length (flat_map (children G) (rev vis)), flat_map (children G) (rev vis)) /\
  NoDup vis /\ forall n, In n vis <-> reach G root n.
Proof.
  destruct (walk_inv (walk_fuel G N) [root] [] 0 []) as (vis & A1 & A2 & A3 & A4 & A5).
  - unfold U, walk_fuel. cbn [length]. change (map (wt []) (seq 0 N)) with (map (fun n => length (children G n)) (seq 0 N)). lia.
  - constructor.
  - intros n [[<-|[]]|[]]. split; [constructor|assumption].
  - intros n c [].
  - reflexivity.
  - reflexivity.
  - exists vis. split; [exact A1|]. split; [assumption|]. intros n. split; [auto|].
    induction 1 as [|n c H IH Hc]; [apply A4; cbn; auto|eauto].
Qed.
End Walk.

(** counts do not depend on the order *)
Lemma perm_sum {A} (f : A -> nat) l m : Permutation l m -> list_sum (map f l) = list_sum (map f m).
Proof. induction 1; cbn in *; unfold list_sum in *; lia. Qed.
Lemma perm_filter_len {A} (f : A -> bool) l m : Permutation l m -> length (filter f l) = length (filter f m).
Proof. induction 1; cbn; [reflexivity|destruct (f x); cbn; lia|destruct (f y), (f x); cbn; lia|lia]. Qed.
Lemma length_flat_map {A B} (f : A -> list B) l : length (flat_map f l) = list_sum (map (fun x => length (f x)) l).
Proof. induction l as [|x l IH]; [reflexivity|]. cbn. rewrite app_length, IH. reflexivity. Qed.
Lemma count_flat_map (G : heap) l n : count_occ Nat.eq_dec (flat_map (children G) l) n = refs_to G l n.
Proof. unfold refs_to. induction l as [|x l IH]; [reflexivity|]. cbn. rewrite count_occ_app, IH. reflexivity. Qed.

Lemma unique_numel_spec size ps : (forall nm t k, In (nm, t, k) ps -> k = size t) -> forall seen,
  exists u, NoDup u /\ (forall t, In t u <-> In t (map (fun p => snd (fst p)) ps) /\ ~ In t seen) /\
    unique_numel seen ps = list_sum (map size u).
Proof.
  induction ps as [|[[nm t] k] ps IH]; intros H seen.
  - exists []. split; [constructor|]. split; [cbn; tauto|reflexivity].
  - cbn [unique_numel]. destruct (existsb (Nat.eqb t) seen) eqn:E.
    + destruct (IH (fun a b c Hx => H a b c (or_intror Hx)) seen) as (u & ND & Hu & ->).
      exists u. split; [assumption|]. split; [|reflexivity]. intros t'. rewrite Hu. cbn. apply exb_In in E.
      split; [tauto|]. intros [[<-|A] B]; [contradiction|tauto].
    + destruct (IH (fun a b c Hx => H a b c (or_intror Hx)) (t :: seen)) as (u & ND & Hu & ->).
      apply exb_false in E. exists (t :: u). split; [constructor; [rewrite Hu; cbn; tauto|assumption]|]. split.
      * intros t'. cbn. rewrite Hu. cbn. destruct (Nat.eq_dec t t') as [->|Ne]; tauto.
      * cbn. rewrite (H nm t k) by (cbn; auto). reflexivity.
Qed.

(** depth *)
Lemma path_app G l m : path G (l ++ m) -> path G l /\ path G m.
Proof.
  induction l as [|a l IH]; intros H; [split; [exact I|exact H]|].
  destruct l as [|b l]; [split; [exact I|]; cbn in H; destruct m; [exact I|apply H]|].
  cbn [app path] in H. destruct H as [H1 H2]. destruct (IH H2) as [A B]. split; [split; assumption|exact B].
Qed.
Lemma path_join G l a m : path G (l ++ [a]) -> path G (a :: m) -> path G (l ++ a :: m).
Proof.
  induction l as [|x l IH]; intros H1 H2; [exact H2|]. destruct l as [|y l].
  - cbn in *. tauto.
  - cbn [app path] in *. destruct H1 as [A B]. split; [exact A|]. apply IH; assumption.
Qed.
Lemma reach_path G root n : reach G root n -> exists l, path G (l ++ [n]) /\ hd n (l ++ [n]) = root.
Proof.
  induction 1 as [|n c H (l & P & E) Hc]; [exists []; split; [exact I|reflexivity]|].
  exists (l ++ [n]). split.
  - rewrite <- app_assoc. apply path_join; [exact P|]. cbn. auto.
  - destruct l; cbn in *; exact E.
Qed.
Lemma path_reach G a l n : path G (a :: l) -> In n (a :: l) -> reach G a n.
Proof.
  assert (forall l b, reach G a b -> path G (b :: l) -> forall n, In n (b :: l) -> reach G a n) as K.
  { clear. induction l as [|c l IH]; intros b Hb P n [<-|Hn]; auto; [destruct Hn|].
    destruct P as [P1 P2]. apply (IH c); [econstructor; eauto|exact P2|exact Hn]. }
  intros P. apply (K l a); [constructor|exact P].
Qed.
Lemma reach_tr G a b c : reach G a b -> reach G b c -> reach G a c.
Proof. intros H. induction 1; [assumption|econstructor; eauto]. Qed.

Lemma longest_unique G n d d' : longest G n d -> longest G n d' -> d = d'.
Proof. intros [(l & P & E) H] [(l' & P' & E') H']. apply H' in P. apply H in P'. lia. Qed.


Lemma cyclic_unbounded G root : cyclic G root -> forall d, exists l, path G (root :: l) /\ d < length (root :: l).
Proof.
  intros (n & c & R & C) d. destruct (reach_path _ _ _ R) as (p & P & E).
  assert (forall d, exists l, path G (n :: l) /\ d < length (n :: l)) as K.
  { clear d P E. induction d as [|d IH]; [exists []; cbn; split; [exact I|lia]|].
    destruct IH as (l & Pl & Ll). exists (c ++ n :: l). split.
    - change (n :: c ++ n :: l) with ((n :: c) ++ n :: l). apply path_join; [exact C|exact Pl].
    - cbn in *. rewrite app_length. cbn. lia. }
  destruct (K d) as (l & Pl & Ll).
  assert (path G (p ++ n :: l)) as Q by (apply path_join; assumption).
  destruct p as [|x p]; cbn in E; subst.
  - exists l. auto.
  - exists (p ++ n :: l). split; [exact Q|]. cbn in *. rewrite app_length. cbn. lia.
Qed.

Section Depth.
Variables (G : heap) (N root : nat).
Hypothesis Hclosed : forall n c, n < N -> In c (children G n) -> c < N.

Definition memo_ok (memo : list (nat * nat)) : Prop := forall n d, In (n, d) memo -> longest G n d.
Lemma find_memo_In memo n d : find_memo memo n = Some d -> In (n, d) memo.
Proof.
  induction memo as [|[m e] r IH]; cbn; [discriminate|]. destruct (Nat.eqb_spec m n) as [->|]; [|auto].
  intros H. injection H as ->. auto.
Qed.
(** [visiting] is the chain of ancestors of [n], nearest first *)
Definition chain_ok (visiting : list nat) (n : nat) : Prop :=
  path G (rev visiting ++ [n]) /\ hd n (rev visiting ++ [n]) = root.
Lemma chain_cyclic visiting n : chain_ok visiting n -> In n visiting -> cyclic G root.
Proof.
  intros [P H] Hn. apply in_rev in Hn. apply in_split in Hn. destruct Hn as (l1 & l2 & E).
  rewrite E, <- app_assoc in P, H. exists n, l2. split; [|apply path_app in P; exact (proj2 P)].
  destruct l1 as [|x l1].
  - cbn in H. subst. constructor.
  - cbn in H. subst. apply (path_reach G root (l1 ++ (n :: l2) ++ [n])); [exact P|]. cbn. right. apply in_app_iff. right. cbn. auto.
Qed.
Lemma chain_child visiting n c : chain_ok visiting n -> In c (children G n) -> chain_ok (n :: visiting) c.
Proof.
  intros [P H] Hc. split; cbn [rev].
  - rewrite <- app_assoc. apply path_join; [exact P|]. cbn. auto.
  - destruct (rev visiting); cbn in *; exact H.
Qed.

Lemma longest_children n best : (forall c, In c (children G n) -> exists d, longest G c d /\ d <= best) ->
  (best = 0 /\ children G n = [] \/ exists c, In c (children G n) /\ longest G c best) -> longest G n (1 + best).
Proof.
  intros H1 H2. split.
  - destruct H2 as [[-> E]|(c & Hc & (l & P & L) & _)].
    + exists []. split; [exact I|reflexivity].
    + exists (c :: l). split; [split; assumption|]. cbn in *. lia.
  - intros [|c l] P; [cbn; lia|]. destruct P as [Hc P]. destruct (H1 c Hc) as (d & [_ Hd] & Le). specialize (Hd l P). cbn in *. lia.
Qed.

Lemma depth_spec fuel : forall visiting memo n, n < N -> (forall v, In v visiting -> v < N) -> NoDup visiting ->
  N < length visiting + fuel -> chain_ok visiting n -> memo_ok memo ->
  match depth_dfs G fuel visiting memo n with
  | Ok (d, memo') => longest G n d /\ memo_ok memo'
  | Err => cyclic G root
  end.
Proof.
  induction fuel as [|fuel IH]; intros visiting memo n Hn Hv ND HF Ch Mo.
  - exfalso. assert (length visiting <= length (seq 0 N)) as L.
    { apply NoDup_incl_length; [assumption|]. intros v Hx. apply in_seq. specialize (Hv v Hx). lia. }
    rewrite seq_length in L. lia.
  - cbn [depth_dfs]. destruct (find_memo memo n) as [d|] eqn:Em; [split; [apply Mo, find_memo_In, Em|assumption]|].
    destruct (existsb (Nat.eqb n) visiting) eqn:Ev; [apply exb_In in Ev; eapply chain_cyclic; eauto|].
    apply exb_false in Ev.
    set (go := fix go (cs : list nat) (best : nat) (memo : list (nat * nat)) : result (nat * list (nat * nat)) := _).
    assert (forall cs best memo, incl cs (children G n) -> memo_ok memo ->
      match go cs best memo with
      | Ok (b, memo') => memo_ok memo' /\ best <= b /\ (forall c, In c cs -> exists d, longest G c d /\ d <= b) /\
           (b = best \/ exists c, In c cs /\ longest G c b)
      | Err => cyclic G root
      end) as Hgo.
    { clear memo Em Mo. induction cs as [|c cs IHc]; intros best memo Hi Mo; cbn [go].
      - split; [exact Mo|]. split; [lia|]. split; [intros c []|left; reflexivity].
      - assert (In c (children G n)) as Hc by (apply Hi; cbn; auto).
        assert (NoDup (n :: visiting)) as ND' by (constructor; assumption).
        specialize (IH (n :: visiting) memo c (Hclosed n c Hn Hc)).
        specialize (IH ltac:(intros v [<-|Hx]; auto) ND' ltac:(cbn; lia) (chain_child _ _ _ Ch Hc) Mo).
        destruct (depth_dfs G fuel (n :: visiting) memo c) as [[d memo1]|]; cbn [bind fst snd]; [|exact IH].
        destruct IH as [Ld Mo1]. specialize (IHc (Nat.max best d) memo1 ltac:(intros x Hx; apply Hi; cbn; auto) Mo1).
        destruct (go cs (Nat.max best d) memo1) as [[b memo2]|]; [|exact IHc].
        destruct IHc as (A & B & C & D). split; [assumption|]. split; [lia|]. split.
        + intros x [<-|Hx]; [exists d; split; [assumption|lia]|auto].
        + destruct D as [D|(x & Hx & Lx)]; [|right; exists x; cbn; auto].
          destruct (Nat.max_spec best d) as [[L E]|[L E]]; rewrite E in D; [right; exists c; subst; cbn; auto|left; assumption]. }
    specialize (Hgo (children G n) 0 memo (incl_refl _) Mo).
    destruct (go (children G n) 0 memo) as [[b memo1]|]; cbn [bind fst snd]; [|exact Hgo].
    destruct Hgo as (A & B & C & D).
    assert (longest G n (1 + b)) as L.
    { apply longest_children; [exact C|]. destruct D as [->|D]; [|right; exact D].
      destruct (children G n) as [|c cs] eqn:Ec; [left; auto|right].
      destruct (C c (or_introl eq_refl)) as (d & Ld & Hd). exists c. split; [cbn; auto|]. replace 0 with d by lia. exact Ld. }
    split; [exact L|]. intros m e [H|H]; [injection H as <- <-; exact L|auto].
Qed.

Hypothesis Hroot : root < N.
Lemma depth_top : match depth_dfs G (S N) [] [] root with
  | Ok (d, _) => longest G root d
  | Err => cyclic G root
  end.
Proof.
  pose proof (depth_spec (S N) [] [] root Hroot) as H.
  specialize (H ltac:(intros v []) (NoDup_nil _) ltac:(cbn; lia)).
  specialize (H ltac:(split; [exact I|reflexivity]) ltac:(intros n d [])).
  destruct (depth_dfs G (S N) [] [] root) as [[d m]|]; tauto.
Qed.
End Depth.

(** everything together *)
Lemma stats_spec G N root nodes size : root < N -> (forall n c, n < N -> In c (children G n) -> c < N) ->
  NoDup nodes -> (forall n, In n nodes <-> reach G root n) ->
  (forall n nm t k, In n nodes -> In (nm, t, k) (o_params (G n)) -> k = size t) ->
  (cyclic G root -> get_structure_stats G N root = Err) /\
  (~ cyclic G root -> exists s, get_structure_stats G N root = Ok s /\
     s_nodes s = length nodes /\
     s_edges s = list_sum (map (fun n => length (children G n)) nodes) /\
     (forall t, s_types s t = length (filter (fun n => Nat.eqb (o_class (G n)) t) nodes)) /\
     (forall k, s_scopes s k = length (filter (fun n => Nat.eqb (o_scope (G n)) k) nodes)) /\
     (exists ts, NoDup ts /\ (forall t, In t ts <-> exists n nm k, In n nodes /\ In (nm, t, k) (o_params (G n))) /\
        s_params s = list_sum (map size ts)) /\
     longest G root (s_depth s) /\
     s_shared s = length (filter (fun n => Nat.ltb 1 (refs_to G nodes n)) nodes) /\
     (s_dag s = true <-> exists n, In n nodes /\ 1 < refs_to G nodes n)).
Proof.
  intros Hr Hc ND Hn Hsz. destruct (walk_spec G N root Hr Hc) as (vis & E & NDv & Hvis).
  pose proof (depth_top G N root Hc Hr) as HD. unfold get_structure_stats. rewrite E.
  assert (Permutation (rev vis) nodes) as P.
  { apply Permutation_trans with vis; [apply Permutation_sym, Permutation_rev|]. apply NoDup_Permutation; auto. intros n. rewrite Hvis, Hn. tauto. }
  split.
  - intros C. destruct (depth_dfs G (S N) [] [] root) as [[d m]|]; [|reflexivity].
    exfalso. destruct (cyclic_unbounded G root C d) as (l & Pl & L). destruct HD as [_ HD]. apply HD in Pl. lia.
  - intros C. destruct (depth_dfs G (S N) [] [] root) as [[d m]|]; [|contradiction].
    cbn [bind fst]. eexists. split; [reflexivity|]. cbn [s_nodes s_edges s_types s_scopes s_params s_depth s_shared s_dag].
    split; [rewrite <- (Permutation_length P), rev_length; reflexivity|].
    split; [rewrite length_flat_map; now apply perm_sum|].
    split; [intros t; now apply perm_filter_len|]. split; [intros k; now apply perm_filter_len|]. split.
    { destruct (unique_numel_spec size (flat_map (fun n => o_params (G n)) (rev vis))) with (seen := @nil nat) as (u & NDu & Hu & Eu).
      - intros nm t k H. apply in_flat_map in H. destruct H as (n & H1 & H2). apply (Hsz n nm); [|exact H2].
        eapply Permutation_in; eauto.
      - exists u. split; [assumption|]. split; [|exact Eu]. intros t. rewrite Hu. rewrite in_map_iff. split.
        + intros [([[nm t'] k] & E1 & H) _]. cbn in E1. subst. apply in_flat_map in H. destruct H as (n & H1 & H2).
          exists n, nm, k. split; [eapply Permutation_in; eauto|exact H2].
        + intros (n & nm & k & H1 & H2). split; [|intros []]. exists (nm, t, k). split; [reflexivity|]. apply in_flat_map. exists n.
          split; [eapply Permutation_in; [apply Permutation_sym; exact P|exact H1]|exact H2]. }
    split; [exact HD|].
    set (refs := flat_map (children G) (rev vis)).
    assert (forall n, count_occ Nat.eq_dec refs n = refs_to G nodes n) as HC.
    { intros n. unfold refs. rewrite count_flat_map. apply perm_sum. exact P. }
    assert (length (filter (fun n => Nat.ltb 1 (count_occ Nat.eq_dec refs n)) (nodup Nat.eq_dec refs)) =
            length (filter (fun n => Nat.ltb 1 (refs_to G nodes n)) nodes)) as HS.
    { apply Permutation_length. apply NoDup_Permutation; [apply NoDup_filter, NoDup_nodup|now apply NoDup_filter|].
      intros n. rewrite !filter_In, nodup_In, HC. split; [|intros [H1 H2]; split; [|exact H2]].
      - intros [H1 H2]. split; [|exact H2]. unfold refs in H1. apply in_flat_map in H1. destruct H1 as (p & Hp & Hpc).
        apply Hn. apply reach_child with p; [|exact Hpc]. apply Hn. eapply Permutation_in; eauto.
      - apply (count_occ_In Nat.eq_dec). rewrite HC. apply Nat.ltb_lt in H2. lia. }
    split; [exact HS|]. rewrite HS. rewrite Nat.ltb_lt. split.
    + intros L. destruct (filter (fun n => Nat.ltb 1 (refs_to G nodes n)) nodes) as [|n l] eqn:Ef; [cbn in L; lia|].
      assert (In n (filter (fun n => Nat.ltb 1 (refs_to G nodes n)) nodes)) as Hin by (rewrite Ef; cbn; auto).
      apply filter_In in Hin. destruct Hin as [H1 H2]. exists n. split; [exact H1|]. now apply Nat.ltb_lt.
    + intros (n & H1 & H2). assert (In n (filter (fun n => Nat.ltb 1 (refs_to G nodes n)) nodes)) as Hin.
      { apply filter_In. split; [exact H1|]. now apply Nat.ltb_lt. }
      destruct (filter _ nodes); [destruct Hin|cbn; lia].
Qed.
