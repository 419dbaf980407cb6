(** rg2pic builds a sound PIC. *)
From Coq Require Import List Arith Bool Reals Lia Lra.
From Verif Require Import Base ScopeModel ScopeProofs RegionModel RegionSpec RegionProofs CircuitModel LayerModel PicModel PicSpec PicGrid PicMat PicVisit.
Import ListNotations.
Local Open Scope nat_scope.

Definition lat (z : option nat) : list nat := match z with None => [] | Some a => [a] end.

Section Rg.
Variable q : rule.
Variable gf : nat -> nat -> list R -> list R -> R.
Variable g : input -> row -> list R -> R.
Variable F : factories.
Hypothesis HF : factories_ok q gf g F.

Definition uok (u : pic) (z : option nat) : Prop :=
  sound gf g q u /\ valid (pic_scope u) /\ evidence (pic_scope u) = [] /\ order u = lat z /\ latent u = mkScope (lat z) [] /\
  (group_factory F = None -> plain u).

Lemma add_to_grp k c mk gs : forall n, exists a b, snd (add_to k c mk n gs) = Grp a b.
Proof.
  induction gs as [|x gs IH]; intros n; cbn [add_to]; [eexists _, _; reflexivity|]. destruct (key_eqb _ _); [eexists _, _; reflexivity|]. cbn [snd]. apply IH.
Qed.
Lemma new_integral_ok depth zs ys c st : exists st' w, new_integral F depth zs ys c st = (st', PInt zs ys w c) /\ w <> NoFn /\
  (forall a b, (0 <= fn_of gf w a b)%R) /\ s_next st' = s_next st /\ s_units st' = s_units st /\
  (group_factory F = None -> (forall k h, w <> Grp k h) /\ s_groups st' = s_groups st).
Proof.
  destruct HF as (_ & (ff & EF & NN) & NG & _). unfold new_integral, call_fn. rewrite EF. unfold attach. destruct (group_factory F) as [gg|] eqn:EG.
  - destruct (Nat.eqb (length (query zs)) 0).
    + eexists _, _. split; [reflexivity|]. split; [discriminate|]. split; [intros; apply NN|]. split; [reflexivity|]. split; [reflexivity|discriminate].
    + set (r := add_to _ _ _ _ _). destruct (add_to_grp (depth, length (query zs), length (query ys)) (gg depth (length (query zs)) (length (query ys))) (fun w => PInt zs ys w c) (s_groups (mkSt (s_next st) (S (s_calls st)) (s_units st) (s_groups st))) 0) as (a & b & E). fold r in E.
      eexists _, (snd r). split; [reflexivity|]. rewrite E. split; [discriminate|]. split; [intros; apply NG|]. split; [reflexivity|]. split; [reflexivity|discriminate].
  - eexists _, _. split; [reflexivity|]. split; [discriminate|]. split; [intros; apply NN|]. split; [reflexivity|]. split; [reflexivity|]. intros _. split; [discriminate|reflexivity].
Qed.

Lemma single_eqb a b : a <> b -> scope_eqb (mkScope [a] []) (mkScope [b] []) = false.
Proof. intros H. unfold scope_eqb, equal_query, set_eqb, subb, memb. cbn. rewrite (proj2 (Nat.eqb_neq a b) H). reflexivity. Qed.
Lemma single_valid a : valid (mkScope [a] []).
Proof. split; [repeat constructor; intros []|split; [constructor|split; [intros v _ []|discriminate]]]. Qed.
Lemma join_no_evidence a b : valid a -> valid b -> evidence a = [] -> evidence b = [] -> join a b = Ok (join_of a b) /\ valid (join_of a b) /\ evidence (join_of a b) = [].
Proof.
  intros Va Vb Ea Eb. destruct (join_ok a b Va Vb) as [J V]. split; [exact J|]. split; [exact V|].
  destruct (evidence (join_of a b)) as [|v l] eqn:E; [reflexivity|]. exfalso. assert (H : In v (evidence (join_of a b))) by (rewrite E; now left).
  apply join_of_evidence in H. rewrite Ea, Eb in H. destruct H as [[[]|[]] _].
Qed.

Definition apart (u v : pic) : Prop := forall x, In x (query (pic_scope u)) -> ~ In x (query (pic_scope v)).

Lemma merge_ok strat depth rho u1 u2 a b st : strat <> CP -> uok u1 (Some a) -> uok u2 (Some b) -> a <> b -> apart u1 u2 ->
  exists st' p, merge_units F strat depth rho u1 u2 st = Ok (st', p) /\ uok p (if rho then None else Some (s_next st)) /\
    (forall v, In v (query (pic_scope p)) <-> In v (query (pic_scope u1)) \/ In v (query (pic_scope u2))) /\
    s_next st' = (if rho then s_next st else S (s_next st)) /\ s_units st' = s_units st /\ (group_factory F = None -> s_groups st' = s_groups st).
Proof.
  intros NC (S1 & V1 & E1 & O1 & L1 & P1) (S2 & V2 & E2 & O2 & L2 & P2) NE AP. unfold merge_units. cbn [lat] in *. rewrite L1, L2, (single_eqb a b NE).
  replace (match strat with AUTO => TUCKER | _ => strat end) with TUCKER by (destruct strat; congruence).
  assert (D : isdisjoint (pic_scope u1) (pic_scope u2) = true) by (apply disjb_spec; exact AP).
  destruct (join_no_evidence _ _ V1 V2 E1 E2) as (J & VJ & EJ). destruct (join_no_evidence _ _ (single_valid a) (single_valid b) eq_refl eq_refl) as (JL & VL & _).
  assert (MP : mk_prod u1 u2 = Ok (PProd (join_of (pic_scope u1) (pic_scope u2)) (join_of (mkScope [a] []) (mkScope [b] [])) u1 u2)).
  { unfold mk_prod. rewrite D. cbn [negb]. rewrite J. cbn [bind]. rewrite L1, L2. cbn [join_all join_from]. rewrite JL. reflexivity. }
  rewrite MP. cbn [bind latent]. set (prod := PProd _ _ _ _) in *. set (ys := join_of (mkScope [a] []) (mkScope [b] [])) in *.
  assert (OP : order prod = [a; b]) by (unfold prod; cbn [order]; rewrite L1, L2, (single_eqb a b NE), O1, O2; reflexivity).
  assert (LY : length (query ys) = 2).
  { assert (NoDup (query ys)) as ND by apply VL. assert (NoDup [a; b]) as ND2 by (constructor; [intros [->|[]]; congruence|constructor; [intros []|constructor]]).
    apply Nat.le_antisymm.
    - change 2 with (length [a; b]). apply NoDup_incl_length; [exact ND|]. intros v Hv. apply join_of_query in Hv. cbn in *. tauto.
    - change 2 with (length [a; b]). apply NoDup_incl_length; [exact ND2|]. intros v Hv. apply join_of_query. cbn in *. tauto. }
  set (r := alloc rho st). assert (AL : snd r = mkScope (lat (if rho then None else Some (s_next st))) [] /\ s_next (fst r) = (if rho then s_next st else S (s_next st)) /\ s_units (fst r) = s_units st /\ s_groups (fst r) = s_groups st) by (unfold r, alloc; destruct rho; repeat split).
  destruct r as [st1 zs]. cbn [fst snd] in AL. destruct AL as (-> & A2 & A3 & A4).
  destruct (new_integral_ok depth (mkScope (lat (if rho then None else Some (s_next st))) []) ys prod st1) as (st' & w & E & NW & NN & B1 & B2 & B3).
  exists st', (PInt (mkScope (lat (if rho then None else Some (s_next st))) []) ys w prod). split; [now rewrite E|].
  split.
  { split; [|split; [exact VJ|split; [exact EJ|split; [reflexivity|split; [reflexivity|]]]]].
    - cbn [sound]. split; [cbn [sound prod]; split; [exact S1|split; [exact S2|split; [exact MP|rewrite L1, L2, (single_eqb a b NE); discriminate]]]|].
      split; [exact NW|]. split; [exact NN|]. rewrite OP. split; [constructor; [intros [->|[]]; congruence|constructor; [intros []|constructor]]|exact LY].
    - intros EG. cbn [plain]. split; [apply (B3 EG)|]. split; [now apply P1|now apply P2]. }
  split; [intros v; cbn [pic_scope prod]; apply join_of_query|]. split; [congruence|]. split; [congruence|]. intros EG. destruct (B3 EG) as [_ ->]. exact A4.
Qed.
Lemma merge_cp depth rho u1 u2 a b st : latent u1 = mkScope [a] [] -> latent u2 = mkScope [b] [] -> a <> b -> merge_units F CP depth rho u1 u2 st = Err.
Proof. intros L1 L2 NE. unfold merge_units. rewrite L1, L2, (single_eqb a b NE). reflexivity. Qed.

Definition in_units (us : list (pic * nat)) (v : nat) : Prop := exists u, In u us /\ In v (query (pic_scope (fst u))).
Lemma fold_ok strat depth rho us : strat <> CP -> us <> [] -> forall cur a st, uok cur (Some a) -> a < s_next st ->
  Forall (fun u => uok (fst u) (Some (snd u)) /\ snd u < s_next st /\ apart cur (fst u)) us -> ~ In a (map snd us) -> NoDup (map snd us) ->
  ForallOrdPairs (fun u v => apart (fst u) (fst v)) us ->
  exists st' p, fold_units F strat depth rho cur (map fst us) st = Ok (st', p) /\
    (exists z, uok p z /\ match z with None => rho = true | Some z => rho = false /\ s_next st <= z < s_next st' end) /\
    (forall v, In v (query (pic_scope p)) <-> In v (query (pic_scope cur)) \/ in_units us v) /\
    s_next st <= s_next st' /\ s_units st' = s_units st /\ (group_factory F = None -> s_groups st' = s_groups st).
Proof.
  intros NC. induction us as [|[u b] us IH]; [congruence|]. intros _ cur a st UC Ha HU HA HN HD. cbn [map fst snd fold_units] in *.
  apply Forall_cons_iff in HU. destruct HU as [(UU & Hb & AP) HU]. inversion HN as [|? ? Nb HN']; subst. inversion HD as [|? ? D1 HD']; subst. cbn [fst snd] in *.
  destruct us as [|w us].
  - destruct (merge_ok strat depth rho cur u a b st NC UC UU) as (st' & p & E & UP & SC & N1 & N2 & N3); [intros ->; apply HA; now left|exact AP|].
    cbn [map]. rewrite E. cbn [bind fst snd fold_units]. exists st', p. split; [reflexivity|]. split.
    + exists (if rho then None else Some (s_next st)). split; [exact UP|]. destruct rho; [reflexivity|]. split; [reflexivity|]. rewrite N1. lia.
    + split; [|split; [rewrite N1; destruct rho; lia|split; assumption]].
      intros v. rewrite SC. split; intros [H|H]; [now left|right; exists (u, b); split; [now left|exact H]|now left|]. destruct H as (x & [<-|[]] & H). now right.
  - set (rest := w :: us) in *. assert (EM : map fst rest <> []) by (unfold rest; discriminate).
    destruct (merge_ok strat depth false cur u a b st NC UC UU) as (st1 & p1 & E & UP & SC & N1 & N2 & N3); [intros ->; apply HA; now left|exact AP|].
    replace (match map fst rest with [] => rho | _ :: _ => false end) with false by (destruct (map fst rest); [congruence|reflexivity]). rewrite E. cbn [bind fst snd].
    destruct (IH ltac:(unfold rest; discriminate) p1 (s_next st) st1 UP ltac:(rewrite N1; lia)) as (st' & p & E' & (z & UZ & Hz) & SC' & M1 & M2 & M3).
    + eapply Forall_impl; [|apply Forall_and; [exact HU|exact D1]]. intros [x c] [(X1 & X2 & X3) X4]. cbn [fst snd] in *. split; [exact X1|]. split; [rewrite N1; lia|]. intros v Hv. apply SC in Hv. destruct Hv as [Hv|Hv]; [now apply X3|now apply X4].
    + intros Hin. apply in_map_iff in Hin. destruct Hin as (x & Ex & Hx). rewrite Forall_forall in HU. destruct (HU x Hx) as (_ & X & _). lia.
    + exact HN'.
    + exact HD'.
    + exists st', p. split; [exact E'|]. split; [exists z; split; [exact UZ|]; destruct z; [|exact Hz]; rewrite N1 in Hz; destruct Hz; split; [assumption|lia]|].
      split; [|split; [lia|split; [congruence|intros EG; rewrite (M3 EG); now apply N3]]]. intros v. rewrite SC', SC. split.
      * intros [[H|H]|(x & Hx & H)]; [now left|right; exists (u, b); split; [now left|exact H]|right; exists x; split; [now right|exact H]].
      * intros [H|(x & [<-|Hx] & H)]; [left; now left|left; now right|right; exists x; now split].
Qed.

(** ** The dictionary of units *)
Definition covers (r : region) (u : pic) : Prop := forall v, In v (query (pic_scope u)) <-> In v (query (r_scope r)).
Definition Inv (st : state) : Prop :=
  Forall (fun e => exists z, uok (snd e) (Some z) /\ z < s_next st /\ covers (fst e) (snd e)) (s_units st) /\
  ForallOrdPairs (fun e e' => order (snd e) <> order (snd e')) (s_units st).
Definition present (r : region) (st : state) : Prop := exists e, In e (s_units st) /\ same r (fst e) = true.

Lemma lookup_present r l : (exists e, In e l /\ same r (fst e) = true) -> exists e, In e l /\ same r (fst e) = true /\ lookup r l = Ok (snd e).
Proof.
  induction l as [|[t u] l IH]; intros (e & Hin & HS); [destruct Hin|]. cbn [lookup]. destruct (same r t) eqn:E; [exists (t, u); split; [now left|split; [exact E|reflexivity]]|].
  destruct Hin as [<-|Hin]; [cbn in HS; congruence|]. destruct (IH (ex_intro _ e (conj Hin HS))) as (e' & H1 & H2 & H3). exists e'. split; [now right|]. split; assumption.
Qed.
Lemma same_scope r t v : same r t = true -> (In v (query (r_scope r)) <-> In v (query (r_scope t))).
Proof. intros H. apply same_equal in H. inversion H as [s u ps qs A B C]; subst. cbn [r_scope]. apply A. Qed.

Lemma lookups st p : Inv st -> (forall c, In c p -> present c st) -> (forall c, In c p -> query (r_scope c) <> []) ->
  ForallOrdPairs (fun a b => forall v, In v (query (r_scope a)) -> ~ In v (query (r_scope b))) p ->
  exists us, mapR (fun ch => lookup ch (s_units st)) p = Ok (map fst us) /\ length us = length p /\
    Forall (fun u => uok (fst u) (Some (snd u)) /\ snd u < s_next st) us /\ NoDup (map snd us) /\
    ForallOrdPairs (fun u v => apart (fst u) (fst v)) us /\
    (forall v, in_units us v <-> exists c, In c p /\ In v (query (r_scope c))) /\
    Forall (fun u => exists c e, In c p /\ In e (s_units st) /\ same c (fst e) = true /\ snd e = fst u) us.
Proof.
  intros [I1 I2]. induction p as [|c p IH]; intros HP HQ HD.
  - exists []. split; [reflexivity|]. split; [reflexivity|]. split; [constructor|]. split; [constructor|]. split; [constructor|]. split; [intros v; split; [intros (u & [] & _)|intros (c & [] & _)]|constructor].
  - inversion HD as [|? ? D1 HD']; subst. destruct (IH (fun x Hx => HP x (or_intror Hx)) (fun x Hx => HQ x (or_intror Hx)) HD') as (us & E & L & U & ND & AP & SC & FR).
    destruct (lookup_present c (s_units st) (HP c (or_introl eq_refl))) as (e & He & HSm & EL).
    pose proof I1 as I1'. rewrite Forall_forall in I1'. destruct (I1' e He) as (z & UZ & Hz & CV).
    exists ((snd e, z) :: us). cbn [mapR map fst snd]. fold (@mapR region pic (fun ch => lookup ch (s_units st))). rewrite EL. cbn [bind]. rewrite E. cbn [bind]. split; [reflexivity|]. split; [cbn; lia|].
    split; [constructor; [now split|exact U]|].
    assert (OUT : forall u, In u us -> exists c', In c' p /\ exists e', In e' (s_units st) /\ same c' (fst e') = true /\ snd e' = fst u).
    { intros u Hu. rewrite Forall_forall in FR. destruct (FR u Hu) as (c' & e' & X1 & X2 & X3 & X4). exists c'. split; [exact X1|]. exists e'. repeat split; assumption. }
    split.
    { constructor; [|exact ND]. intros Hin. apply in_map_iff in Hin. destruct Hin as ([u z'] & Ez & Hu). cbn [snd] in Ez. subst z'.
      destruct (OUT _ Hu) as (c' & Hc' & e' & He' & HS' & EU). cbn [fst] in EU. pose proof U as U'. rewrite Forall_forall in U'. destruct (U' _ Hu) as [(_ & _ & _ & OU & _) _]. cbn [fst snd lat] in OU.
      destruct UZ as (_ & _ & _ & OZ & _). cbn [lat] in OZ.
      destruct (ForallOrdPairs_In I2 _ _ He He') as [EE|[NE|NE]].
      - subst e'. rewrite Forall_forall in D1. pose proof (D1 c' Hc') as DJ. destruct (query (r_scope c)) as [|v l] eqn:EQ; [now apply (HQ c (or_introl eq_refl))|].
        apply (DJ v); [now left|]. rewrite (same_scope _ _ v HS'), <- (same_scope _ _ v HSm), EQ. now left.
      - apply NE. rewrite EU. congruence.
      - apply NE. rewrite EU. congruence. }
    split.
    { constructor; [|exact AP]. apply Forall_forall. intros u Hu v Hv Hv'. cbn [fst] in *. destruct (OUT _ Hu) as (c' & Hc' & e' & He' & HS' & EU). destruct (I1' e' He') as (z' & _ & _ & CV').
      rewrite Forall_forall in D1. apply (D1 c' Hc' v); [now apply (same_scope _ _ v HSm), CV|]. rewrite <- EU in Hv'. now apply (same_scope _ _ v HS'), CV'. }
    split.
    { intros v. split.
      - intros (u & [<-|Hu] & Hv); [exists c; split; [now left|cbn [fst] in Hv; now apply (same_scope _ _ v HSm), CV]|]. destruct (proj1 (SC v) (ex_intro _ u (conj Hu Hv))) as (c' & X & Y). exists c'. split; [now right|exact Y].
      - intros (c' & [<-|Hc'] & Hv); [exists (snd e, z); split; [now left|]; cbn [fst]; now apply CV, (same_scope _ _ v HSm)|]. destruct (proj2 (SC v) (ex_intro _ c' (conj Hc' Hv))) as (u & X & Y). exists u. split; [now right|exact Y]. }
    constructor; [exists c, e; repeat split; try assumption; now left|]. eapply Forall_impl; [|exact FR]. intros u (c' & e' & X1 & X2). exists c', e'. split; [now right|exact X2].
Qed.

Definition part_ok (X : region) (p : list region) : Prop := 2 <= length p /\
    ForallOrdPairs (fun a b => forall v, In v (query (r_scope a)) -> ~ In v (query (r_scope b))) p /\
    (forall v, In v (query (r_scope X)) <-> exists c, In c p /\ In v (query (r_scope c))).

Lemma partition_ok strat depth rho X p st : strat <> CP -> Inv st -> (forall c, In c p -> present c st) -> (forall c, In c p -> query (r_scope c) <> []) -> part_ok X p ->
  exists st' u, partition_unit F strat depth rho p st = Ok (st', u) /\
    (exists z, uok u z /\ match z with None => rho = true | Some z => rho = false /\ s_next st <= z < s_next st' end) /\
    covers X u /\ s_next st <= s_next st' /\ s_units st' = s_units st /\ (group_factory F = None -> s_groups st' = s_groups st).
Proof.
  intros NC I HP HQ (L & D & SC). destruct (lookups st p I HP HQ D) as (us & E & LU & U & ND & AP & SU & _). unfold partition_unit. rewrite (proj2 (Nat.ltb_ge _ _) L), E. cbn [bind].
  destruct us as [|[u0 z0] us]; [cbn in LU; lia|]. cbn [map fst]. assert (NE : us <> []) by (intros ->; cbn in LU; lia). inversion U as [|? ? [U0 Z0] U']; subst. inversion AP as [|? ? A0 AP']; subst. cbn [map snd] in ND. inversion ND as [|? ? N0 ND']; subst. cbn [fst snd] in *.
  destruct (fold_ok strat depth rho us NC NE u0 z0 st U0 Z0) as (st' & u & E' & HZ & SC' & R); [|exact N0|exact ND'|exact AP'|].
  - eapply Forall_impl; [|apply Forall_and; [exact U'|exact A0]]. intros x [[X1 X2] X3]. repeat split; try assumption; apply X1.
  - exists st', u. split; [exact E'|]. split; [exact HZ|]. split; [|exact R]. intros v. rewrite SC', SC, <- SU. split.
    + intros [H|(x & Hx & H)]; [exists (u0, z0); split; [now left|exact H]|exists x; split; [now right|exact H]].
    + intros (x & [<-|Hx] & H); [now left|right; exists x; now split].
Qed.
Lemma partition_cp depth rho X p st : Inv st -> (forall c, In c p -> present c st) -> (forall c, In c p -> query (r_scope c) <> []) -> part_ok X p -> partition_unit F CP depth rho p st = Err.
Proof.
  intros I HP HQ (L & D & SC). destruct (lookups st p I HP HQ D) as (us & E & LU & U & ND & _). unfold partition_unit. rewrite (proj2 (Nat.ltb_ge _ _) L), E. cbn [bind].
  destruct us as [|[u0 z0] [|[u1 z1] us]]; [cbn in LU; lia|cbn in LU; lia|]. cbn [map fst fold_units]. inversion U as [|? ? [(_ & _ & _ & _ & L0 & _) _] U']; subst. inversion U' as [|? ? [(_ & _ & _ & _ & L1 & _) _] _]; subst. cbn [fst snd lat map] in *.
  erewrite merge_cp; [reflexivity|exact L0|exact L1|]. inversion ND as [|? ? N _]; subst. intros ->. apply N. now left.
Qed.

Lemma Inv_mono st st' : Inv st -> s_units st' = s_units st -> s_next st <= s_next st' -> Inv st'.
Proof.
  intros [I1 I2] E N. split; rewrite E; [|exact I2]. eapply Forall_impl; [|exact I1]. intros e (z & A & B & C). exists z. split; [exact A|]. split; [lia|exact C].
Qed.

Lemma partitions_ok strat depth rho X ps : strat <> CP -> forall st, Inv st -> (forall p c, In p ps -> In c p -> present c st) -> (forall p c, In p ps -> In c p -> query (r_scope c) <> []) ->
  (forall p, In p ps -> part_ok X p) ->
  exists st' us, partitions F strat depth rho ps st = Ok (st', us) /\ length us = length ps /\
    Forall (fun u => exists z, uok u z /\ match z with None => rho = true | Some z => rho = false /\ s_next st <= z < s_next st' end /\ covers X u) us /\
    (rho = false -> ForallOrdPairs (fun u v => exists a b, latent u = mkScope [a] [] /\ latent v = mkScope [b] [] /\ a <> b) us) /\
    s_next st <= s_next st' /\ s_units st' = s_units st /\ (group_factory F = None -> s_groups st' = s_groups st).
Proof.
  intros NC. induction ps as [|p ps IH]; intros st I HP HQ HO.
  - exists st, []. split; [reflexivity|]. split; [reflexivity|]. split; [constructor|]. split; [intros _; constructor|]. repeat split; auto.
  - destruct (partition_ok strat depth rho X p st NC I (fun c => HP p c (or_introl eq_refl)) (fun c => HQ p c (or_introl eq_refl)) (HO p (or_introl eq_refl))) as (st1 & u & E & (z & UZ & HZ) & CV & N1 & N2 & N3).
    destruct (IH st1 (Inv_mono _ _ I N2 N1)) as (st' & us & E' & LU & U & DI & M1 & M2 & M3).
    + intros p' c Hp Hc. unfold present. rewrite N2. eapply HP; [right; exact Hp|exact Hc].
    + intros p' c Hp Hc. eapply HQ; [right; exact Hp|exact Hc].
    + intros p' Hp. apply HO. now right.
    + exists st', (u :: us). cbn [partitions]. rewrite E. cbn [bind fst snd]. rewrite E'. cbn [bind fst snd]. split; [reflexivity|]. split; [cbn; lia|]. split.
      { constructor; [exists z; split; [exact UZ|]; split; [|exact CV]; destruct z; [|exact HZ]; destruct HZ; split; [assumption|lia]|].
        eapply Forall_impl; [|exact U]. intros v (y & A & B & C). exists y. split; [exact A|]. split; [|exact C]. destruct y; [|exact B]. destruct B; split; [assumption|lia]. }
      split; [|split; [lia|split; [congruence|intros EG; rewrite (M3 EG); now apply N3]]].
      intros HR. constructor; [|now apply DI]. apply Forall_forall. intros v Hv. rewrite Forall_forall in U. destruct (U v Hv) as (y & A & B & _).
      destruct z as [z|]; [|congruence]. destruct y as [y|]; [|congruence]. exists z, y. split; [apply UZ|]. split; [apply A|]. lia.
Qed.

(** ** One region *)
Definition region_ok (X : region) : Prop := valid (r_scope X) /\ evidence (r_scope X) = [] /\ query (r_scope X) <> [] /\ forall p, In p (r_children X) -> part_ok X p.
Definition accepted strat (X : region) : Prop := r_children X = [] \/ (strat <> CP /\ length (r_children X) = 1).

Lemma Inv_put X u z st : Inv st -> uok u (Some z) -> covers X u -> (forall e y, In e (s_units st) -> uok (snd e) (Some y) -> y < s_next st -> y <> z) -> z < s_next st -> Inv (put X u st).
Proof.
  intros [I1 I2] U CV FR Hz. split; cbn [put s_units s_next].
  - constructor; [exists z; split; [exact U|split; [exact Hz|exact CV]]|exact I1].
  - constructor; [|exact I2]. apply Forall_forall. intros e He. cbn [snd]. rewrite Forall_forall in I1. destruct (I1 e He) as (y & A & B & _). pose proof (FR e y He A B) as N. destruct U as (_ & _ & _ & OU & _). destruct A as (_ & _ & _ & OA & _). rewrite OU, OA. cbn. congruence.
Qed.
Lemma order_some u z y : uok u (Some z) -> uok u (Some y) -> z = y.
Proof. intros (_ & _ & _ & A & _) (_ & _ & _ & B & _). rewrite A in B. cbn in B. now injection B. Qed.

Lemma step_inner strat root X st : region_eqb X root = false -> Inv st -> region_ok X -> (forall c, is_child c X -> present c st) -> (forall c, is_child c X -> query (r_scope c) <> []) ->
  (accepted strat X -> exists st' u, region_step F strat root X st = Ok st' /\ Inv st' /\ s_units st' = (X, u) :: s_units st /\ (group_factory F = None -> s_groups st' = s_groups st)) /\
  (~ accepted strat X -> region_step F strat root X st = Err).
Proof.
  intros NR I (VX & EX & QX & PX) HP HQ. unfold region_step. rewrite NR. destruct (r_children X) as [|p ps] eqn:EC.
  - split; [|intros H; exfalso; apply H; now left]. intros _. cbn [alloc]. set (zs := mkScope [s_next st] []). destruct (proj1 HF (r_scope X) zs) as (L1 & L2 & L3).
    rewrite L2. assert (scope_eqb zs zs = true) as -> by (apply scope_eqb_spec; split; intros; tauto). cbn [negb].
    eexists _, _. split; [reflexivity|]. split; [|split; [reflexivity|reflexivity]].
    apply (Inv_put X _ (s_next st)).
    + eapply Inv_mono; [exact I|reflexivity|cbn; lia].
    + split; [exact L3|]. cbn [pic_scope order latent plain]. rewrite L1, L2. repeat split; try assumption; try apply VX.
    + intros v. cbn [pic_scope]. now rewrite L1.
    + intros e y He Hu Hy E. cbn [s_units s_next] in *. destruct I as [I1 _]. rewrite Forall_forall in I1. destruct (I1 e He) as (z & A & B & _). rewrite <- (order_some _ _ _ A Hu) in E. lia.
    + cbn. lia.
  - assert (HP' : forall p' c, In p' (p :: ps) -> In c p' -> present c st) by (intros p' c H1 H2; apply HP; exists p'; rewrite EC; now split).
    assert (HQ' : forall p' c, In p' (p :: ps) -> In c p' -> query (r_scope c) <> []) by (intros p' c H1 H2; apply HQ; exists p'; rewrite EC; now split).
    assert (DS : {strat = CP} + {strat <> CP}) by (destruct strat; [right; discriminate|right; discriminate|now left]).
    destruct DS as [->|NC].
    + split; [intros [H|[H _]]; [rewrite EC in H; discriminate|congruence]|]. intros _. cbn [partitions].
      rewrite (partition_cp (rdepth X) false X p st I (fun c => HP' p c (or_introl eq_refl)) (fun c => HQ' p c (or_introl eq_refl)) (PX p (or_introl eq_refl))). reflexivity.
    + destruct (partitions_ok strat (rdepth X) false X (p :: ps) NC st I HP' HQ' PX) as (st1 & us & E & LU & U & DI & N1 & N2 & N3). rewrite E. cbn [bind fst snd]. specialize (DI eq_refl).
      destruct us as [|u us]; [discriminate|]. destruct us as [|u2 us].
      * split; [|intros H; exfalso; apply H; right; split; [exact NC|rewrite EC, <- LU; reflexivity]]. intros _. apply Forall_inv in U. destruct U as ([z|] & UZ & HZ & CV); [|discriminate].
        eexists _, u. split; [reflexivity|]. split; [|split; [cbn; now rewrite N2|exact N3]]. apply (Inv_put X u z); [eapply Inv_mono; eassumption|exact UZ|exact CV| |apply HZ].
        intros e y He Hu Hy EQ. rewrite N2 in He. destruct I as [I1 _]. rewrite Forall_forall in I1. destruct (I1 e He) as (z' & A & B & _). rewrite <- (order_some _ _ _ A Hu) in EQ. lia.
      * split; [intros [H|[_ H]]; [rewrite EC in H; discriminate|exfalso; rewrite EC, <- LU in H; cbn in H; lia]|]. intros _.
        inversion DI as [|? ? D1 _]; subst. apply Forall_inv in D1. destruct D1 as (a & b & A & B & AB).
        assert (existsb (fun m => negb (scope_eqb (latent m) (latent u))) (u2 :: us) = true) as ->; [|reflexivity].
        cbn [existsb]. rewrite A, B, (single_eqb b a) by congruence. reflexivity.
Qed.
End Rg.
