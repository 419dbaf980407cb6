(** Function groups with C-sharing: pic2qpc on the PICs of binary region graphs. *)
From Coq Require Import List Arith Bool Reals Lia Lra.
From Verif Require Import Base ScopeModel ScopeProofs RegionModel RegionSpec RegionProofs CircuitModel LayerModel PicModel PicSpec PicGrid PicMat PicVisit PicRg PicTop.
Import ListNotations.
Local Open Scope nat_scope.

(** every integral below has a place in a C-sharing group of smaller depth *)
Fixpoint gsub (G : list group) (d : nat) (p : pic) : Prop :=
  match p with
  | PLeaf _ => True
  | PInt _ _ w c => gsub G d c /\
      match w with
      | Grp k h => exists gr, nth_error G k = Some gr /\ g_c gr = true /\ h < length (g_units gr) /\ fst (fst (g_key gr)) < d
      | _ => True
      end
  | PProd _ _ l r => gsub G d l /\ gsub G d r
  | PSum _ _ cs => (fix all (l : list pic) : Prop := match l with [] => True | c :: r => gsub G d c /\ all r end) cs
  end.
Definition all_gsub G d := fix all (l : list pic) : Prop := match l with [] => True | c :: r => gsub G d c /\ all r end.
Lemma all_gsub_spec G d l : all_gsub G d l <-> Forall (gsub G d) l.
Proof. induction l as [|c l IH]; cbn; split; intros H; [constructor|exact Logic.I|constructor; tauto|inversion H; tauto]. Qed.

Definition ext (G G' : list group) : Prop := forall k gr, nth_error G k = Some gr ->
  exists gr', nth_error G' k = Some gr' /\ g_key gr' = g_key gr /\ g_c gr' = g_c gr /\ length (g_units gr) <= length (g_units gr').
Lemma ext_refl G : ext G G.
Proof. intros k gr H. exists gr. repeat split; auto. Qed.
Lemma ext_trans A B C : ext A B -> ext B C -> ext A C.
Proof.
  intros H1 H2 k gr E. destruct (H1 k gr E) as (g1 & E1 & K1 & C1 & L1). destruct (H2 k g1 E1) as (g2 & E2 & K2 & C2 & L2). exists g2. split; [exact E2|]. split; [congruence|]. split; [congruence|lia].
Qed.
Lemma gsub_ext G G' d d' p : ext G G' -> d <= d' -> gsub G d p -> gsub G' d' p.
Proof.
  intros HE Hd. induction p as [u|zs ys w c IH|s zs l r IHl IHr|ws zs cs IH] using pic_ind'; cbn [gsub]; intros H.
  - exact Logic.I.
  - destruct H as [H1 H2]. split; [now apply IH|]. destruct w as [|f|k h]; try exact Logic.I. destruct H2 as (gr & E & GC & L & D). destruct (HE k gr E) as (gr' & E' & K & C & L'). exists gr'. split; [exact E'|]. split; [congruence|]. split; [lia|]. rewrite K. lia.
  - destruct H. split; auto.
  - fold (all_gsub G d) in H. fold (all_gsub G' d'). apply all_gsub_spec in H. apply all_gsub_spec. induction cs as [|c cs IHc]; [constructor|]. inversion IH; subst. inversion H; subst. constructor; auto.
Qed.

Section Share.
Variable q : rule.
Variable gf : nat -> nat -> list R -> list R -> R.
Variable g : input -> row -> list R -> R.

Definition unit_ok (G : list group) (k : nat) (gr : group) (v : pic) : Prop :=
  exists zs ys h c, v = PInt zs ys (Grp k h) c /\ sound gf g q v /\ h < length (g_units gr) /\ gsub G (fst (fst (g_key gr))) c.
Definition strat_ok (G : list group) : Prop := forall k gr, nth_error G k = Some gr ->
  g_c gr = true /\ forall v, In v (g_units gr) -> unit_ok G k gr v.

(** ** pic2qpc *)
Lemma common_fuel {A} (P : nat -> A -> Prop) l : (forall a, In a l -> exists N, forall n, N <= n -> P n a) -> exists N, forall n a, N <= n -> In a l -> P n a.
Proof.
  induction l as [|a l IH]; intros H; [exists 0; intros n a _ []|]. destruct (IH (fun b Hb => H b (or_intror Hb))) as (N & HN). destruct (H a (or_introl eq_refl)) as (M & HM).
  exists (Nat.max N M). intros n b Hn [<-|Hb]; [apply HM; lia|apply HN; [lia|exact Hb]].
Qed.
Lemma mapR_total {A B} (f : A -> result B) l : (forall a, In a l -> exists b, f a = Ok b) -> exists bs, mapR f l = Ok bs.
Proof.
  induction l as [|a l IH]; intros H; [now exists []|]. destruct (H a (or_introl eq_refl)) as (b & Eb). destruct (IH (fun x Hx => H x (or_intror Hx))) as (bs & E). exists (b :: bs). cbn. rewrite Eb. cbn [bind]. fold (@mapR A B f). now rewrite E.
Qed.
Lemma in_combine_Forall2 {A B} (P : A -> B -> Prop) l l' a b : Forall2 P l l' -> In (a, b) (combine l l') -> P a b.
Proof. induction 1 as [|x y l l' H _ IH]; [intros []|]. intros [E|Hin]; [injection E as <- <-; exact H|now apply IH]. Qed.

Lemma visit_grp G : rule_ok q = true -> strat_ok G -> forall d p, sound gf g q p -> gsub G d p ->
  exists N, forall fuel, N <= fuel -> visit q gf G fuel p = mat gf q p.
Proof.
  intros RO SG. pose proof (rule_ok_inv q RO) as RI. destruct RI as [LW NN]. induction d as [d IHd] using lt_wf_ind.
  induction p as [u|zs ys w c IH|s zs l r IHl IHr|ws zs cs IH] using pic_ind'; intros HS HG.
  - exists 1. intros [|n] H; [lia|reflexivity].
  - cbn [sound gsub] in HS, HG. destruct HS as (Sc & NW & FN & ND & LY). destruct HG as [HGc HGw]. destruct (IH Sc HGc) as (N & HN). destruct w as [|f|k h]; [congruence| |].
    + exists (S N). intros [|n] H; [lia|]. cbn [visit mat]. now rewrite HN by lia.
    + destruct HGw as (gr & EG & GC & Hh & HD). pose proof (SG k gr EG) as [_ HU].
      assert (HV : forall v, In v (g_units gr) -> exists M, forall n, M <= n -> (visit q gf G n (int_child v) = mat gf q (int_child v))).
      { intros v Hv. destruct (HU v Hv) as (zs' & ys' & h' & c' & -> & Sv & _ & Gv). cbn [int_child]. cbn [sound] in Sv. exact (IHd _ HD c' (proj1 Sv) Gv). }
      destruct (common_fuel _ _ HV) as (M & HM). exists (S (Nat.max N M)). intros [|n] H; [lia|]. cbn [visit]. rewrite EG.
      rewrite (mapR_ext (fun v => visit q gf G n (int_child v)) (fun v => mat gf q (int_child v)) (g_units gr)) by (intros v Hv; apply HM; [lia|exact Hv]).
      assert (UO : forall v m, In v (g_units gr) -> mat gf q (int_child v) = Ok m -> exists mm, mat_unit q gr (gf k) v m = Ok mm).
      { intros v m Hv Em. destruct (HU v Hv) as (zs' & ys' & h' & c' & -> & Sv & Hh' & _). cbn [int_child] in Em. cbn [sound] in Sv. destruct Sv as (Sc' & _ & FN' & _ & LY'). destruct (mat_means gf g q c' RO Sc') as (m' & Em' & _ & Sh & _). rewrite Em in Em'. injection Em' as <-.
        unfold mat_unit. cbn [int_dims int_head fst snd]. rewrite Sh. cbn [channels]. rewrite <- LY', Nat.eqb_refl. cbn [negb]. unfold group_rows. rewrite GC. rewrite (proj2 (Nat.ltb_lt _ _) Hh'). cbn [negb].
        destruct (mat_int_ok q (length (query zs')) (length (query ys')) (gf k h') m _ LW NN FN' Sh (f_equal _ (eq_sym LY'))) as (mm & E & _). exists mm. exact E. }
      destruct (mapR_total (fun v => mat gf q (int_child v)) (g_units gr)) as (ms & Ems).
      { intros v Hv. destruct (HU v Hv) as (zs' & ys' & h' & c' & -> & Sv & _). cbn [int_child]. cbn [sound] in Sv. destruct (mat_means gf g q c' RO (proj1 Sv)) as (m & Em & _). now exists m. }
      rewrite Ems. cbn [bind]. pose proof (mapR_inv _ _ _ Ems) as F2.
      destruct (mapR_total (fun vm => mat_unit q gr (gf k) (fst vm) (snd vm)) (filter (fun vm => negb (Nat.eqb (fst (int_dims (fst vm))) 0)) (combine (g_units gr) ms))) as (us & Eus).
      { intros [v m] Hvm. apply filter_In in Hvm. destruct Hvm as [Hvm _]. cbn [fst snd]. apply UO; [now apply in_combine_l in Hvm|]. exact (in_combine_Forall2 _ _ _ _ _ F2 Hvm). }
      rewrite Eus. cbn [bind]. rewrite HN by lia. cbn [mat]. destruct (mat_means gf g q c RO Sc) as (mc & Emc & _ & Sh & _). rewrite Emc. cbn [bind].
      destruct (Nat.eqb_spec (length (query zs)) 0) as [Z|Z].
      * rewrite GC. unfold group_rows. rewrite GC. rewrite (proj2 (Nat.ltb_lt _ _) Hh). reflexivity.
      * unfold mat_unit. cbn [int_dims int_head fst snd]. rewrite Sh. cbn [channels]. rewrite <- LY, Nat.eqb_refl. cbn [negb]. unfold group_rows. rewrite GC. rewrite (proj2 (Nat.ltb_lt _ _) Hh). cbn [negb]. reflexivity.
  - cbn [sound gsub] in HS, HG. destruct HS as (Sl & Sr & _). destruct HG as [Gl Gr]. destruct (IHl Sl Gl) as (N & HN). destruct (IHr Sr Gr) as (M & HM).
    exists (S (Nat.max N M)). intros [|n] H; [lia|]. cbn [visit mat]. rewrite HN, HM by lia. reflexivity.
  - cbn [sound] in HS. destruct HS as [_ HA]. change (all_sound gf g q (order (PSum ws zs cs)) cs) in HA. apply all_sound_spec in HA.
    cbn [gsub] in HG. fold (all_gsub G d) in HG. apply all_gsub_spec in HG. rewrite Forall_forall in HA, HG, IH.
    destruct (common_fuel (fun n c => visit q gf G n c = mat gf q c) cs) as (N & HN).
    { intros c Hc. apply (IH c Hc); [apply HA; exact Hc|now apply HG]. }
    exists (S N). intros [|n] H; [lia|]. cbn [visit mat]. rewrite (mapR_ext (visit q gf G n) (mat gf q) cs); [reflexivity|]. intros c Hc. apply HN; [lia|exact Hc].
Qed.

(** ** rg2pic *)
Lemma add_to_spec k mk gs : forall n gs' w, add_to k true mk n gs = (gs', w) ->
  (forall gr, In gr gs -> g_c gr = true) ->
  exists a h, w = Grp (n + a) h /\ ext gs gs' /\ (forall gr, In gr gs' -> g_c gr = true) /\
    (exists gr, nth_error gs' a = Some gr /\ g_key gr = k /\ h < length (g_units gr)) /\
    (forall j gr', nth_error gs' j = Some gr' -> forall v, In v (g_units gr') ->
       (exists gr, nth_error gs j = Some gr /\ In v (g_units gr)) \/ (j = a /\ v = mk w)).
Proof.
  induction gs as [|x gs IH]; intros n gs' w E HC; cbn [add_to] in E.
  - injection E as <- <-. exists 0, 0. split; [now rewrite Nat.add_0_r|]. split; [intros [|j] gr H; discriminate|]. split; [intros gr [<-|[]]; reflexivity|]. split.
    + eexists. split; [reflexivity|]. split; [reflexivity|cbn; lia].
    + intros [|[|j]] gr' H; try discriminate. cbn in H. injection H as <-. intros v [<-|[]]. right. split; reflexivity.
  - destruct (key_eqb (g_key x) k) eqn:EK.
    + injection E as <- <-. assert (KE : g_key x = k).
      { unfold key_eqb in EK. apply andb_prop in EK. destruct EK as [EK E3]. apply andb_prop in EK. destruct EK as [E1 E2]. apply Nat.eqb_eq in E1, E2, E3. destruct (g_key x) as [[a b] c], k as [[a' b'] c']. cbn in *. congruence. }
      exists 0, (length (g_units x)). split; [now rewrite Nat.add_0_r|]. split.
      * intros [|j] gr H; [|exists gr; split; [exact H|split; [reflexivity|split; [reflexivity|lia]]]]. cbn in H. injection H as <-. eexists. split; [reflexivity|]. split; [reflexivity|]. split; [reflexivity|]. cbn [g_units]. rewrite app_length. lia.
      * split; [intros gr [<-|H]; [cbn [g_c]; apply HC; now left|apply HC; now right]|]. split.
        -- eexists. split; [reflexivity|]. split; [exact KE|]. cbn [g_units]. rewrite app_length. cbn. lia.
        -- intros [|j] gr' H v Hv; [|left; exists gr'; now split]. cbn in H. injection H as <-. cbn [g_units] in Hv. apply in_app_iff in Hv. destruct Hv as [Hv|[<-|[]]]; [left; exists x; now split|right; split; reflexivity].
    + destruct (add_to k true mk (S n) gs) as [gs1 w1] eqn:E1. cbn [fst snd] in E. injection E as <- <-. destruct (IH (S n) gs1 w1 E1 (fun gr H => HC gr (or_intror H))) as (a & h & EW & EX & HC' & (gr & N1 & N2 & N3) & HU).
      exists (S a), h. split; [rewrite EW; f_equal; lia|]. split; [intros [|j] y H; [cbn in H; injection H as <-; exists x; repeat split; auto|now apply EX]|].
      split; [intros y [<-|H]; [apply HC; now left|now apply HC']|]. split; [exists gr; repeat split; assumption|].
      intros [|j] gr' H v Hv; [left; cbn in H; injection H as <-; exists x; now split|]. destruct (HU j gr' H v Hv) as [L|[-> L]]; [now left|right; split; [reflexivity|exact L]].
Qed.

Variable F : factories.
Hypothesis HF : factories_ok q gf g F.
Variable sh : nat -> nat -> nat -> bool.
Hypothesis EF : group_factory F = Some sh.
Hypothesis HC : forall d z y, sh d z y = true.

Lemma strat_c G : strat_ok G -> forall gr, In gr G -> g_c gr = true.
Proof. intros H gr Hin. apply In_nth_error in Hin. destruct Hin as [k E]. apply (H k gr E). Qed.
Lemma merge_grp strat depth rho u1 u2 st st' p : scope_eqb (latent u1) (latent u2) = false -> strat_ok (s_groups st) ->
  gsub (s_groups st) depth u1 -> gsub (s_groups st) depth u2 -> merge_units F strat depth rho u1 u2 st = Ok (st', p) -> sound gf g q p ->
  strat_ok (s_groups st') /\ ext (s_groups st) (s_groups st') /\ gsub (s_groups st') (S depth) p.
Proof.
  intros NE SG G1 G2 E HS. unfold merge_units in E. rewrite NE in E. cbn [negb] in E.
  destruct (match strat with AUTO => TUCKER | s => s end) eqn:ES; try discriminate E.
  destruct (mk_prod u1 u2) as [prod|] eqn:EP; [|discriminate E]. cbn [bind] in E. assert (GP : gsub (s_groups st) depth prod).
  { unfold mk_prod in EP. destruct (negb _); [discriminate EP|]. destruct (join _ _); [|discriminate EP]. cbn [bind] in EP. destruct (join_all _); [|discriminate EP]. cbn [bind] in EP. injection EP as <-. cbn [gsub]. now split. }
  destruct (alloc rho st) as [st1 zs] eqn:EA. assert (GA : s_groups st1 = s_groups st) by (unfold alloc in EA; destruct rho; injection EA as <- <-; reflexivity).
  injection E as E. unfold new_integral in E. destruct (call_fn F (length (query zs)) (length (query (latent prod))) st1) as [st2 w0] eqn:EC.
  assert (GC : s_groups st2 = s_groups st /\ (forall k h, w0 <> Grp k h)) by (rewrite <- GA; unfold call_fn in EC; destruct (function_factory F); injection EC as <- <-; split; try reflexivity; discriminate).
  destruct GC as [GC NG]. unfold attach in E. rewrite EF in E. destruct (Nat.eqb (length (query zs)) 0).
  - injection E as <- <-. rewrite GC. split; [exact SG|]. split; [apply ext_refl|]. cbn [gsub]. split; [eapply gsub_ext; [apply ext_refl| |exact GP]; lia|]. destruct w0; try exact Logic.I. exfalso. eapply NG. reflexivity.
  - rewrite HC in E. destruct (add_to _ true _ 0 (s_groups st2)) as [gs' w] eqn:EAD. cbn [fst snd] in E. injection E as <- <-. cbn [s_groups]. rewrite GC in EAD.
    destruct (add_to_spec _ _ _ _ _ _ EAD (strat_c _ SG)) as (a & h & -> & EX & HC' & (gr & N1 & N2 & N3) & HU). cbn [Nat.add] in *.
    split; [|split; [exact EX|]].
    + intros k gr' Ek. split; [apply HC'; eapply nth_error_In; exact Ek|]. intros v Hv. destruct (HU k gr' Ek v Hv) as [(gr0 & E0 & Hv0)|[-> ->]].
      * destruct (proj2 (SG k gr0 E0) v Hv0) as (zs' & ys' & h' & c' & EV & SV & LV & GV). destruct (EX k gr0 E0) as (gr1 & E1 & K1 & C1 & L1). rewrite Ek in E1. injection E1 as <-.
        exists zs', ys', h', c'. split; [exact EV|]. split; [exact SV|]. split; [lia|]. rewrite K1. eapply gsub_ext; [exact EX|apply le_n|exact GV].
      * rewrite N1 in Ek. injection Ek as <-. eexists _, _, h, prod. split; [reflexivity|]. split; [exact HS|]. split; [exact N3|]. rewrite N2. cbn [fst]. eapply gsub_ext; [exact EX|apply le_n|exact GP].
    + cbn [gsub]. split; [eapply gsub_ext; [exact EX| |exact GP]; lia|]. exists gr. split; [exact N1|]. split; [apply HC'; eapply nth_error_In; exact N1|]. split; [exact N3|]. rewrite N2. cbn [fst]. lia.
Qed.

Definition GI (st : state) : Prop := strat_ok (s_groups st) /\ Forall (fun e => gsub (s_groups st) (S (rdepth (fst e))) (snd e)) (s_units st).
Lemma GI_mono st st' : GI st -> strat_ok (s_groups st') -> ext (s_groups st) (s_groups st') -> s_units st' = s_units st -> GI st'.
Proof. intros [_ H] S' EX EU. split; [exact S'|]. rewrite EU. eapply Forall_impl; [|exact H]. intros e He. eapply gsub_ext; [exact EX|apply le_n|exact He]. Qed.
Lemma rdepth_equal r t : region_equal r t -> rdepth r = rdepth t.
Proof.
  revert t. induction r as [r IH] using region_ind_size. intros t H. inversion H as [s u ps qs A B C]; subst. 
  assert (E : map (fun p => list_max (map rdepth p)) ps = map (fun p => list_max (map rdepth p)) qs).
  { assert (IH' : forall p c, In p ps -> In c p -> forall t, region_equal c t -> rdepth c = rdepth t).
    { intros p c Hp Hc t Ht. apply IH; [|exact Ht]. exists p. now split. }
    clear IH H A B. induction C as [|p q' ps qs PQ _ IHC]; [reflexivity|]. cbn [map]. f_equal; [|apply IHC; intros; eapply IH'; [right|..]; eassumption].
    f_equal. assert (IHp : forall c, In c p -> forall t, region_equal c t -> rdepth c = rdepth t) by (intros c Hc; apply (IH' p c (or_introl eq_refl) Hc)).
    clear IH' IHC. induction PQ as [|c c' p q' CC _ IHP]; [reflexivity|]. cbn [map]. f_equal; [now apply IHp; [left|]|]. apply IHP. intros; apply IHp; [now right|assumption]. }
  cbn [rdepth]. rewrite E. destruct C; [reflexivity|]. reflexivity.
Qed.
Lemma rdepth_child c X : is_child c X -> S (rdepth c) <= rdepth X.
Proof.
  intros (p & Hp & Hc). destruct X as [s ps]. cbn [r_children] in Hp. cbn [rdepth]. destruct ps as [|p0 ps]; [destruct Hp|]. apply le_n_S.
  transitivity (list_max (map rdepth p)); [apply list_max_In, in_map, Hc|]. apply (list_max_In _ (map (fun p => list_max (map rdepth p)) (p0 :: ps))). apply (in_map (fun p => list_max (map rdepth p)) (p0 :: ps) p Hp).
Qed.

Lemma partition_grp strat rho X p st st' u : strat <> CP -> Inv q gf g F st -> GI st -> (forall c, In c p -> present c st) -> (forall c, In c p -> query (r_scope c) <> []) -> part_ok X p ->
  length p = 2 -> In p (r_children X) -> partition_unit F strat (rdepth X) rho p st = Ok (st', u) ->
  strat_ok (s_groups st') /\ ext (s_groups st) (s_groups st') /\ gsub (s_groups st') (S (rdepth X)) u.
Proof.
  intros NC I [SG UG] HP HQ PO L2 Hin E. assert (SU : sound gf g q u).
  { destruct (partition_ok q gf g F HF strat (rdepth X) rho X p st NC I HP HQ PO) as (st2 & u2 & E2 & (z & UZ & _) & _). rewrite E in E2. injection E2 as <- <-. apply UZ. }
  destruct PO as (_ & D & _). destruct (lookups q gf g F st p I HP HQ D) as (us & EM & LU & U & ND & AP & _ & FR). unfold partition_unit in E. rewrite L2 in E. cbn [Nat.ltb Nat.leb] in E. rewrite EM in E. cbn [bind] in E.
  rewrite L2 in LU. destruct us as [|[u0 z0] [|[u1 z1] [|? ?]]]; try discriminate LU. cbn [map fst fold_units] in E.
  destruct (merge_units F strat (rdepth X) rho u0 u1 st) as [[st1 p1]|] eqn:EU; [|discriminate E]. cbn [bind fst snd fold_units] in E. injection E as <- <-.
  assert (GU : forall w, In w [(u0, z0); (u1, z1)] -> gsub (s_groups st) (rdepth X) (fst w)).
  { intros w Hw. rewrite Forall_forall in FR, UG. destruct (FR w Hw) as (c & e & Hc & He & HSm & <-). eapply gsub_ext; [apply ext_refl| |exact (UG e He)].
    rewrite <- (rdepth_equal _ _ (same_equal _ _ HSm)). apply rdepth_child. exists p. now split. }
  apply (merge_grp strat (rdepth X) rho u0 u1 st st1 p1).
  - rewrite Forall_forall in U. destruct (U (u0, z0) (or_introl eq_refl)) as [(_ & _ & _ & _ & A0 & _) _]. destruct (U (u1, z1) (or_intror (or_introl eq_refl))) as [(_ & _ & _ & _ & A1 & _) _]. cbn [fst snd] in *. rewrite A0, A1. apply single_eqb.
    cbn [map snd] in ND. inversion ND as [|? ? N _]; subst. intros ->. apply N. now left.
  - exact SG.
  - apply (GU (u0, z0)). now left.
  - apply (GU (u1, z1)). right. now left.
  - exact EU.
  - exact SU.
Qed.

Lemma partitions_grp strat rho X ps : strat <> CP -> (forall p, In p ps -> length p = 2 /\ In p (r_children X)) -> forall st st' us, Inv q gf g F st -> GI st ->
  (forall p c, In p ps -> In c p -> present c st) -> (forall p c, In p ps -> In c p -> query (r_scope c) <> []) -> (forall p, In p ps -> part_ok X p) ->
  partitions F strat (rdepth X) rho ps st = Ok (st', us) ->
  strat_ok (s_groups st') /\ ext (s_groups st) (s_groups st') /\ Forall (gsub (s_groups st') (S (rdepth X))) us.
Proof.
  intros NC. induction ps as [|p ps IH]; intros HB st st' us I HG HP HQ HO E; cbn [partitions] in E.
  - injection E as <- <-. split; [apply HG|]. split; [apply ext_refl|constructor].
  - destruct (partition_ok q gf g F HF strat (rdepth X) rho X p st NC I (fun c => HP p c (or_introl eq_refl)) (fun c => HQ p c (or_introl eq_refl)) (HO p (or_introl eq_refl))) as (st1 & u & E1 & _ & _ & N1 & N2 & _).
    rewrite E1 in E. cbn [bind fst snd] in E. destruct (partitions F strat (rdepth X) rho ps st1) as [[st2 us2]|] eqn:E2; [|discriminate E]. cbn [bind fst snd] in E. injection E as <- <-.
    destruct (partition_grp strat rho X p st st1 u NC I HG (fun c => HP p c (or_introl eq_refl)) (fun c => HQ p c (or_introl eq_refl)) (HO p (or_introl eq_refl)) (proj1 (HB p (or_introl eq_refl))) (proj2 (HB p (or_introl eq_refl))) E1) as (S1 & X1 & U1).
    destruct (IH (fun p' H => HB p' (or_intror H)) st1 st2 us2) as (S2 & X2 & U2).
    + eapply Inv_mono; eassumption.
    + eapply GI_mono; eassumption.
    + intros p' c Hp Hc. unfold present. rewrite N2. eapply HP; [right; exact Hp|exact Hc].
    + intros p' c Hp Hc. eapply HQ; [right; exact Hp|exact Hc].
    + intros p' Hp. apply HO. now right.
    + exact E2.
    + split; [exact S2|]. split; [eapply ext_trans; eassumption|]. constructor; [eapply gsub_ext; [exact X2|apply le_n|exact U1]|exact U2].
Qed.

Lemma step_grp strat root X st st' : (strat <> CP \/ r_children X = []) -> Inv q gf g F st -> GI st -> region_ok X -> (forall c, is_child c X -> present c st) -> (forall c, is_child c X -> query (r_scope c) <> []) ->
  (forall p, In p (r_children X) -> length p = 2) -> region_step F strat root X st = Ok st' -> GI st'.
Proof.
  intros NC I HG (VX & EX & QX & PX) HP HQ HB E. unfold region_step in E. destruct (r_children X) as [|p ps] eqn:EC.
  - destruct (alloc (region_eqb X root) st) as [st1 zs] eqn:EA. assert (GA : s_groups st1 = s_groups st /\ s_units st1 = s_units st) by (unfold alloc in EA; destruct (region_eqb X root); injection EA as <- <-; split; reflexivity). destruct GA as [GA UA].
    destruct (negb _); [discriminate E|]. injection E as <-. split; cbn [put s_groups s_units]; rewrite GA; [apply HG|]. rewrite UA. constructor; [exact Logic.I|apply HG].
  - destruct NC as [NC|NC]; [|discriminate NC].
    assert (HP' : forall p' c, In p' (p :: ps) -> In c p' -> present c st) by (intros p' c H1 H2; apply HP; exists p'; rewrite EC; now split).
    assert (HQ' : forall p' c, In p' (p :: ps) -> In c p' -> query (r_scope c) <> []) by (intros p' c H1 H2; apply HQ; exists p'; rewrite EC; now split).
    destruct (partitions_ok q gf g F HF strat (rdepth X) (region_eqb X root) X (p :: ps) NC st I HP' HQ' PX) as (st1 & us & E1 & _ & _ & _ & _ & N2 & _).
    rewrite E1 in E. cbn [bind fst snd] in E.
    destruct (partitions_grp strat (region_eqb X root) X (p :: ps) NC) with (st := st) (st' := st1) (us := us) as (S1 & X1 & U1); try assumption.
    { intros p' Hp'. split; [now apply HB|now rewrite EC]. }
    pose proof (GI_mono _ _ HG S1 X1 N2) as G1. destruct us as [|u [|u2 us]]; [discriminate E| |].
    + injection E as <-. split; cbn [put s_groups s_units]; [exact S1|]. constructor; [exact (Forall_inv U1)|apply G1].
    + destruct (existsb _ _); [discriminate E|]. set (ws := match sum_weights_factory F with None => _ | Some h => _ end) in *. destruct (mk_sum (u :: u2 :: us) ws (latent u)) as [sm|] eqn:ES; [|discriminate E]. cbn [bind] in E. injection E as <-.
      apply mk_sum_inv in ES. destruct ES as (-> & _). split; cbn [put s_groups s_units]; [exact S1|]. constructor; [|apply G1]. cbn [fst snd].
      change (all_gsub (s_groups st1) (S (rdepth X)) (u :: u2 :: us)). now apply all_gsub_spec.
Qed.

Definition binary (root : region) : Prop := forall r p, reach root r -> In p (r_children r) -> length p = 2.
Lemma loop_grp strat root l : strat <> CP -> rg_ok root -> binary root -> forall done st st' rest, post_order root = done ++ l ++ root :: rest -> Inv q gf g F st -> GI st -> map fst (s_units st) = rev done ->
  region_loop F strat root l st = Ok st' -> GI st' /\ Inv q gf g F st' /\ map fst (s_units st') = rev (done ++ l).
Proof.
  intros NC RG HB. destruct (post_order_post root) as (A & EA & RA & _ & DA & OA). subst A.
  induction l as [|X l IH]; intros done st st' rest EP I HG EU E.
  - cbn [region_loop] in E. injection E as <-. rewrite app_nil_r. split; [exact HG|]. split; [exact I|exact EU].
  - assert (HX : In X (post_order root)) by (rewrite EP; apply in_app_iff; right; now left).
    assert (SX : same X root = false).
    { pose proof DA as D. unfold distinct in D. rewrite EP in D. clear -D. induction done as [|d done IHd]; [|apply IHd; now inversion D]. cbn [app] in D. inversion D as [|? ? H _]; subst. rewrite Forall_forall in H. apply H. apply in_app_iff. right. now left. }
    assert (NR : region_eqb X root = false).
    { destruct (region_eqb X root) eqn:E0; [|reflexivity]. exfalso. apply region_eqb_spec, region_equal_size in E0. pose proof (RA X HX) as RX. inversion RX as [|r c Hr Hc]; subst; [now rewrite same_refl in SX|]. apply child_size in Hc. apply reach_size in Hr. lia. }
    destruct (rg_region root X RG (RA X HX)) as [RO RQ].
    assert (HP : forall c, is_child c X -> present c st).
    { intros c Hc. destruct (OA done X (l ++ root :: rest) EP c Hc) as (d & Hd & Sd). apply in_rev in Hd. rewrite <- EU in Hd. apply in_map_iff in Hd. destruct Hd as (e & <- & He). now exists e. }
    cbn [region_loop] in E. destruct (region_step F strat root X st) as [st1|] eqn:E1; [|discriminate E]. cbn [bind] in E.
    pose proof (step_grp strat root X st st1 (or_introl NC) I HG RO HP RQ (fun p Hp => HB X p (RA X HX) Hp) E1) as G1.
    destruct (step_inner q gf g F HF strat root X st NR I RO HP RQ) as [SA SB]. destruct (accepted_dec strat X) as [AX|AX]; [|rewrite (SB AX) in E1; discriminate E1].
    destruct (SA AX) as (st2 & u & E2 & I1 & U1 & _). rewrite E1 in E2. injection E2 as <-.
    destruct (IH (done ++ [X]) st1 st' rest) as (P1 & P2 & P3); [rewrite <- app_assoc; exact EP|exact I1|exact G1|rewrite U1; cbn [map fst]; now rewrite rev_app_distr, EU|exact E|].
    split; [exact P1|]. split; [exact P2|]. now rewrite <- app_assoc in P3.
Qed.

Lemma lookup_in r l u : lookup r l = Ok u -> exists e, In e l /\ same r (fst e) = true /\ snd e = u.
Proof.
  induction l as [|[t v] l IH]; [discriminate|]. cbn [lookup]. destruct (same r t) eqn:E; intros H; [injection H as <-; exists (t, v); split; [now left|now split]|]. destruct (IH H) as (e & H1 & H2). exists e. split; [now right|exact H2].
Qed.
Lemma rg2pic_grp strat root u G : strat <> CP -> rg_ok root -> binary root -> rg2pic F strat root = Ok (u, G) -> strat_ok G /\ gsub G (S (rdepth root)) u.
Proof.
  intros NC RG HB E. destruct (post_order_last root) as [l EP]. unfold rg2pic in E. rewrite EP, loop_app in E. set (st0 := mkSt _ 0 [] []) in *.
  destruct (region_loop F strat root l st0) as [st1|] eqn:E1; [|discriminate E]. cbn [bind region_loop] in E. destruct (region_step F strat root root st1) as [st2|] eqn:E2; [|discriminate E]. cbn [bind] in E.
  destruct (lookup root (s_units st2)) as [u'|] eqn:EL; [|discriminate E]. cbn [bind] in E. injection E as <- <-.
  destruct (loop_grp strat root l NC RG HB [] st0 st1 []) as (G1 & I1 & U1); try assumption.
  - split; cbn; constructor.
  - split; cbn [st0 s_groups s_units]; [intros [|k] gr H; discriminate|constructor].
  - reflexivity.
  - destruct (rg_region root root RG (reach_root root)) as [RO RQ]. destruct (post_order_post root) as (A & EA & RA & _ & DA & OA). subst A.
    assert (HP : forall c, is_child c root -> present c st1).
    { intros c Hc. destruct (OA l root [] EP c Hc) as (d & Hd & Sd). cbn [app] in U1. apply in_rev in Hd. rewrite <- U1 in Hd. apply in_map_iff in Hd. destruct Hd as (e & <- & He). now exists e. }
    pose proof (step_grp strat root root st1 st2 (or_introl NC) I1 G1 RO HP RQ (fun p Hp => HB root p (reach_root root) Hp) E2) as [S2 U2]. split; [exact S2|].
    apply lookup_in in EL. destruct EL as (e & He & HSm & <-). rewrite Forall_forall in U2. rewrite (rdepth_equal _ _ (same_equal _ _ HSm)). now apply U2.
Qed.
End Share.
