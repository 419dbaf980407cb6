(** C275-C281: probabilistic integral circuits (spflow/zoo/pic/pipeline.py). *)
From Coq Require Import List Arith Bool Reals Lia Lra FunctionalExtensionality.
From Verif Require Import Base ScopeModel ScopeProofs RegionModel RegionSpec RegionProofs CircuitModel Integral LayerModel PicModel PicSpec PicGrid PicMat PicVisit PicRg PicTop PicMass.
Import ListNotations.
Local Open Scope nat_scope.

(** C275: rg2pic accepts a region graph iff it is a single region, or the strategy is not CP
    and only the root has alternative partitions; what it returns is a well-formed PIC over
    the variables of the root with every latent integrated out *)
Theorem C275_accepts q gf g F strat root : rg_ok root -> factories_ok q gf g F ->
  ((exists pg, rg2pic F strat root = Ok pg) <-> r_children root = [] \/ (strat <> CP /\ single_below root)).
Proof.
  intros RG HF. destruct (rg2pic_spec q gf g F HF strat root RG) as [A B]. split.
  - intros [pg E]. destruct (r_children root) as [|p ps] eqn:EC; [now left|]. right.
    destruct (post_order_last root) as [l EP].
    assert (DS : {strat = CP} + {strat <> CP}) by (destruct strat; [right; discriminate|right; discriminate|now left]).
    destruct DS as [->|NC]; [exfalso; rewrite B in E; [discriminate|]; intros [H|[H _]]; [discriminate|congruence]|]. split; [exact NC|].
    apply (below_accepted strat root l EP NC).
    assert (DEC : forall k : list region, Forall (accepted strat) k \/ ~ Forall (accepted strat) k).
    { clear. induction k as [|X k IH]; [left; constructor|]. destruct (accepted_dec strat X) as [AX|AX]; [destruct IH as [IH|IH]; [left; now constructor|right; intros H; apply IH; now inversion H]|right; intros H; apply AX; now inversion H]. }
    destruct (DEC l) as [H|H]; [exact H|]. exfalso. rewrite B in E; [discriminate|]. intros [X|[_ X]]; [discriminate|]. apply H. now apply (below_accepted strat root l EP NC).
  - intros H. destruct (A H) as (u & G & E & _). now exists (u, G).
Qed.
Theorem C275_result q gf g F strat root u G : rg_ok root -> factories_ok q gf g F -> rg2pic F strat root = Ok (u, G) ->
  sound gf g q u /\ order u = [] /\ latent u = empty_scope /\
  (forall v, In v (query (pic_scope u)) <-> In v (query (r_scope root))) /\ evidence (pic_scope u) = [] /\ NoDup (query (pic_scope u)) /\
  (group_factory F = None -> plain u /\ G = []).
Proof.
  intros RG HF E. destruct (proj1 (C275_accepts q gf g F strat root RG HF) (ex_intro _ _ E)) as [H|H].
  - destruct (proj1 (rg2pic_spec q gf g F HF strat root RG) (or_introl H)) as (u' & G' & E' & (S1 & V1 & E1 & O1 & L1 & P1) & CV & GN). rewrite E in E'. injection E' as <- <-.
    split; [exact S1|]. split; [exact O1|]. split; [exact L1|]. split; [exact CV|]. split; [exact E1|]. split; [apply V1|]. intros EG. split; [now apply P1|now apply GN].
  - destruct (proj1 (rg2pic_spec q gf g F HF strat root RG) (or_intror H)) as (u' & G' & E' & (S1 & V1 & E1 & O1 & L1 & P1) & CV & GN). rewrite E in E'. injection E' as <- <-.
    split; [exact S1|]. split; [exact O1|]. split; [exact L1|]. split; [exact CV|]. split; [exact E1|]. split; [apply V1|]. intros EG. split; [now apply P1|now apply GN].
Qed.
Print Assumptions C275_accepts.
Print Assumptions C275_result.

(** C276: the materialised circuit computes the PIC with every integral replaced by the
    quadrature rule; a unit with latents gets one channel per assignment of quadrature points *)
Theorem C276_value gf g q p G : rule_ok q = true -> sound gf g q p -> plain p ->
  exists m n, (forall fuel, n <= fuel -> pic2qpc q gf fuel (p, G) = Ok m) /\
    q_scope m = pic_scope p /\ q_shape m = mkShape 1 (length (pts q) ^ length (order p)) 1 /\
    (forall x c e, c < length (pts q) ^ length (order p) -> map e (order p) = nth c (grid q (length (order p))) [] ->
       pr (q_ll m x 0 c 0) = den left_first gf g q x p e).
Proof.
  intros RO HS HP. destruct (mat_means gf g q p RO HS) as (m & E & S1 & S2 & V). exists m, (height p). split; [|split; [exact S1|split; [exact S2|exact V]]].
  intros fuel Hf. unfold pic2qpc. rewrite RO. cbn [negb fst snd]. now rewrite visit_plain.
Qed.
Theorem C276_grid q n : length (pts q) ^ n = length (grid q n) /\
  (forall c, c < length (pts q) ^ n -> length (nth c (grid q n) []) = n /\ forall a, In a (nth c (grid q n) []) -> In a (pts q)) /\
  (forall l, length l = n -> (forall a, In a l -> In a (pts q)) -> In l (grid q n)).
Proof.
  assert (GS : forall k, grid q (S k) = flat_map (fun a => map (cons a) (grid q k)) (pts q)) by reflexivity.
  split; [symmetry; apply grid_length|]. split.
  - intros c Hc. assert (Hin : In (nth c (grid q n) []) (grid q n)) by (apply nth_In; rewrite grid_length; exact Hc).
    revert Hin. generalize (nth c (grid q n) []). clear Hc. induction n as [|n IH]; intros l; [intros [<-|[]]; split; [reflexivity|intros a []]|]. rewrite GS. intros H. apply in_flat_map in H. destruct H as (y & Hy & H). apply in_map_iff in H. destruct H as (l' & <- & H).
    destruct (IH l' H) as [L A]. split; [cbn; now rewrite L|]. intros a [<-|Ha]; [exact Hy|now apply A].
  - induction n as [|n IH]; intros [|b l] L H; try discriminate; [now left|]. rewrite GS. apply in_flat_map. exists b. split; [apply H; now left|]. apply in_map. apply IH; [now injection L|intros a Ha; apply H; now right].
Qed.
Theorem C276_end_to_end q gf g F strat root pg : rule_ok q = true -> rg_ok root -> factories_ok q gf g F -> group_factory F = None ->
  rg2pic F strat root = Ok pg ->
  exists m n, (forall fuel, n <= fuel -> pic2qpc q gf fuel pg = Ok m) /\
    (forall v, In v (query (q_scope m)) <-> In v (query (r_scope root))) /\ q_shape m = mkShape 1 1 1 /\
    (forall x e, pr (q_ll m x 0 0 0) = den left_first gf g q x (fst pg) e).
Proof.
  intros RO RG HF NG E. destruct pg as [u G]. destruct (C275_result q gf g F strat root u G RG HF E) as (S1 & O1 & _ & CV & _ & _ & HG). destruct (HG NG) as [P1 ->].
  destruct (C276_value gf g q u [] RO S1 P1) as (m & n & A & B & C & V). exists m, n. split; [exact A|]. rewrite O1 in *. split; [intros v; now rewrite B|]. split; [exact C|]. intros x e. cbn [fst]. apply V; [cbn; lia|reflexivity].
Qed.
(** when every integral lists its latents in that order, it is the PIC of the documentation *)
Theorem C276_by_scope gf g q x p e : in_order p -> den by_scope gf g q x p e = den left_first gf g q x p e.
Proof. intros H. now apply den_in_order. Qed.
Print Assumptions C276_value.
Print Assumptions C276_grid.
Print Assumptions C276_end_to_end.
Print Assumptions C276_by_scope.

(** C277: with input units that are densities for each value of their latents, summing the
    materialised circuit over a variable is the same as leaving it missing; its total mass
    consists of the weights only, and is one when these are conditional densities under the
    rule *)
Theorem C277_marginal D gf g q p G fuel m : rule_ok q = true -> sound gf g q p -> plain p -> order p = [] -> (forall u, In u (leaves p) -> leaf_density D g u) ->
  height p <= fuel -> pic2qpc q gf fuel (p, G) = Ok m ->
  forall v x, In v (query (pic_scope p)) -> sums (D v) (fun a => pr (q_ll m (set_cell x v (Some a)) 0 0 0)) (pr (q_ll m (set_cell x v None) 0 0 0)).
Proof.
  intros RO HS HP HO HL Hf E v x Hv. unfold pic2qpc in E. rewrite RO in E. cbn [negb fst snd] in E. rewrite (visit_plain _ _ _ _ _ Hf HP) in E.
  destruct (mat_means gf g q p RO HS) as (m' & E' & _ & _ & V). rewrite E in E'. injection E' as <-. rewrite HO in V. set (e0 := fun _ : nat => 0%R).
  assert (W : forall y, pr (q_ll m y 0 0 0) = den left_first gf g q y p e0) by (intros y; apply V; [cbn; lia|reflexivity]).
  rewrite W. apply sums_ext with (f := fun a => den left_first gf g q (set_cell x v (Some a)) p e0); [intros a; now rewrite W|]. now apply (den_sums D gf g q v p HS HL Hv).
Qed.
Theorem C277_total D gf g q p G fuel m : rule_ok q = true -> sound gf g q p -> plain p -> order p = [] -> NoDup (query (pic_scope p)) -> (forall u, In u (leaves p) -> leaf_density D g u) ->
  height p <= fuel -> pic2qpc q gf fuel (p, G) = Ok m ->
  forall x e, sums_over D (query (pic_scope p)) (fun y => pr (q_ll m y 0 0 0)) x (den left_first gf (fun _ _ _ => 1%R) q x p e) /\
    (normal gf q p -> sums_over D (query (pic_scope p)) (fun y => pr (q_ll m y 0 0 0)) x 1%R).
Proof.
  intros RO HS HP HO ND HL Hf E x e. unfold pic2qpc in E. rewrite RO in E. cbn [negb fst snd] in E. rewrite (visit_plain _ _ _ _ _ Hf HP) in E.
  destruct (mat_means gf g q p RO HS) as (m' & E' & _ & _ & V). rewrite E in E'. injection E' as <-. rewrite HO in V.
  assert (W : forall y, den left_first gf g q y p e = pr (q_ll m y 0 0 0)) by (intros y; symmetry; apply V; [cbn; lia|reflexivity]).
  pose proof (den_total D gf g q p x e HS HL ND) as T.
  assert (T' : sums_over D (query (pic_scope p)) (fun y => pr (q_ll m y 0 0 0)) x (den left_first gf (fun _ _ _ => 1%R) q x p e)).
  { replace (fun y => pr (q_ll m y 0 0 0)) with (fun y => den left_first gf g q y p e); [exact T|]. apply functional_extensionality. exact W. }
  split; [exact T'|]. intros HN. now rewrite (den_normal gf g q p HS HN x e) in T'.
Qed.
Print Assumptions C277_marginal.
Print Assumptions C277_total.

(** C278: refuted.  merge_strategy=MergeStrategy.CP should give a PIC; it raises for every
    region graph with a partition, because sibling units always have different latents *)
Theorem C278_cp_refuted q gf g F root : rg_ok root -> factories_ok q gf g F -> r_children root <> [] -> rg2pic F CP root = Err.
Proof.
  intros RG HF HC. apply (rg2pic_spec q gf g F HF CP root RG). intros [H|[H _]]; [now apply HC|congruence].
Qed.
Print Assumptions C278_cp_refuted.

(** C279: refuted.  Alternative partitions of a region should become a sum; they do at the
    root only, anywhere else rg2pic raises: each partition gets its own latent *)
Theorem C279_alternatives_refuted q gf g F strat root r c : rg_ok root -> factories_ok q gf g F -> reach root r -> is_child c r -> 2 <= length (r_children c) ->
  rg2pic F strat root = Err.
Proof.
  intros RG HF HR HC HL. apply (rg2pic_spec q gf g F HF strat root RG). intros [H|[_ H]]; [|specialize (H r c HR HC); lia].
  assert (R0 : forall t, reach root t -> t = root) by (intros t Ht; induction Ht as [|a b Ha IH (p & Hp & _)]; [reflexivity|subst a; rewrite H in Hp; destruct Hp]).
  rewrite (R0 r HR) in HC. destruct HC as (p & Hp & _). rewrite H in Hp. destruct Hp.
Qed.
Print Assumptions C279_alternatives_refuted.

(** C280: refuted.  F-sharing (one function for all integrals of a depth) should give a
    circuit; as soon as two integrals share a function, pic2qpc raises: the group evaluates
    one row and the second integral asks for row 1.  Here on four variables, for every rule,
    all input units and functions *)
Definition sc (l : list nat) : scope := mkScope l [].
Definition lf (v : nat) : region := Region (sc [v]) [].
Definition tree4 : region := Region (sc [0; 1; 2; 3]) [[Region (sc [0; 1]) [[lf 0; lf 1]]; Region (sc [2; 3]) [[lf 2; lf 3]]]].
Definition shared (mt : scope -> scope -> rule -> result qmod) (ff : nat -> nat -> nat -> list R -> list R -> R) (sharing : option (nat -> nat -> nat -> bool)) : factories :=
  mkFact (fun s z => mkIn s z (mt s z)) (Some ff) None sharing.
Lemma mapR_snoc_err {A B} (h : A -> result B) a l : In a l -> h a = Err -> mapR h l = Err.
Proof.
  induction l as [|b l IH]; intros [] E; cbn [mapR]; fold (@mapR A B h); [subst b; now rewrite E|]. destruct (h b); cbn [bind]; [|reflexivity]. now rewrite IH.
Qed.
Lemma mapR_len {A B} (h : A -> result B) l : forall ms, mapR h l = Ok ms -> length ms = length l.
Proof.
  induction l as [|a l IH]; intros ms; cbn [mapR]; fold (@mapR A B h); [intros H; now injection H as <-|]. destruct (h a); cbn [bind]; [|discriminate]. destruct (mapR h l) as [bs|]; cbn [bind]; [|discriminate]. intros H. injection H as <-. cbn. now rewrite (IH bs).
Qed.
(** an integral of a group of F-sharing with a unit of head one or more *)
Lemma f_group_err q gf G fuel zs ys k h c gr i v : nth_error G k = Some gr -> g_c gr = false -> nth_error (g_units gr) i = Some v -> fst (int_dims v) <> 0 -> int_head v <> 0 ->
  visit q gf G fuel (PInt zs ys (Grp k h) c) = Err.
Proof.
  intros EG EC EV ED EH. destruct fuel as [|n]; [reflexivity|]. cbn [visit]. rewrite EG.
  destruct (mapR (fun w => visit q gf G n (int_child w)) (g_units gr)) as [ms|] eqn:EM; cbn [bind]; [|reflexivity].
  pose proof (mapR_len _ _ _ EM) as LM. assert (Hi : i < length (g_units gr)) by (apply nth_error_Some; congruence).
  destruct (nth_error ms i) as [m|] eqn:Em; [|apply nth_error_None in Em; lia].
  assert (HIn : In (v, m) (combine (g_units gr) ms)).
  { clear -EV Em. revert i ms EV Em. induction (g_units gr) as [|a l IH]; intros [|i] [|b ms] EV Em; cbn in *; try discriminate; [injection EV as ->; injection Em as ->; now left|right; now apply (IH i)]. }
  rewrite (mapR_snoc_err _ (v, m) _); [reflexivity| |].
  - apply filter_In. split; [exact HIn|]. cbn [fst]. now rewrite (proj2 (Nat.eqb_neq _ _) ED).
  - cbn [fst snd]. unfold mat_unit. destruct (negb (Nat.eqb _ _)); [reflexivity|]. unfold group_rows. rewrite EC. replace (Nat.ltb (int_head v) 1) with false; [reflexivity|]. symmetry. apply Nat.ltb_ge. lia.
Qed.
Theorem C280_f_sharing_refuted mt ff q gf :
  exists pg, rg2pic (shared mt ff (Some (fun _ _ _ => false))) AUTO tree4 = Ok pg /\ forall fuel, pic2qpc q gf fuel pg = Err.
Proof.
  eexists. split; [vm_compute; reflexivity|]. intros fuel. unfold pic2qpc. destruct (rule_ok q); [|reflexivity]. cbn [negb fst snd].
  destruct fuel as [|n]; [reflexivity|]. cbn [visit]. destruct n as [|n]; [reflexivity|]. cbn [visit].
  erewrite f_group_err with (i := 1); [reflexivity|reflexivity|reflexivity|reflexivity|discriminate|discriminate].
Qed.
Print Assumptions C280_f_sharing_refuted.

(** C281: refuted.  Function groups should work for every region graph rg2pic accepts; with a
    partition into four regions an integral is nested in another one of the same group, and
    pic2qpc does not terminate (no recursion depth is enough), whatever the sharing *)
Definition four : region := Region (sc [0; 1; 2; 3]) [[lf 0; lf 1; lf 2; lf 3]].
Theorem C281_nary_groups_refuted mt ff sh q gf :
  exists pg, rg2pic (shared mt ff (Some sh)) AUTO four = Ok pg /\ forall fuel, pic2qpc q gf fuel pg = Err.
Proof.
  eexists. split; [vm_compute; reflexivity|]. intros fuel. unfold pic2qpc. destruct (rule_ok q); [|reflexivity]. cbn [negb fst snd].
  match goal with |- visit _ _ ?G _ _ = _ => set (GG := G) end.
  assert (K : forall n, (forall zs ys h c, visit q gf GG n (PInt zs ys (Grp 0 h) c) = Err)).
  { induction n as [n IH] using lt_wf_ind. intros zs ys h c. destruct n as [|n]; [reflexivity|]. cbn [visit]. change (nth_error GG 0) with (Some (hd (mkGrp (0, 0, 0) true []) GG)). cbn [hd GG].
    destruct n as [|n]; [cbn; reflexivity|]. erewrite (mapR_snoc_err (fun v => visit q gf GG (S n) (int_child v))); [reflexivity|right; left; reflexivity|]. cbn [int_child visit]. now rewrite IH by lia. }
  destruct fuel as [|n]; [reflexivity|]. cbn [visit]. destruct n as [|n]; [reflexivity|]. cbn [visit]. now rewrite K.
Qed.
Print Assumptions C281_nary_groups_refuted.

(** ** Examples: Bernoulli input units whose parameter depends on the latent, on four variables *)
Section Example.
Local Open Scope R_scope.
Definition ex_p (z : list R) : R := match z with [] => 1 / 2 | t :: _ => if Req_EM_T t 0 then 1 / 4 else 3 / 4 end.
Definition ex_val (s : scope) (x : row) (z : list R) : R :=
  match query s with
  | [] => 1
  | v :: _ => match x v with None => 1 | Some a => if Req_EM_T a 1 then ex_p z else if Req_EM_T a 0 then 1 - ex_p z else 0 end
  end.
Definition ex_g (u : input) : row -> list R -> R := ex_val (i_scope u).
Definition ex_leaf (s z : scope) : input :=
  mkIn s z (fun q => Ok (mkQ s (mkShape 1 (length (pts q) ^ length (query z)) 1) (fun x _ c _ => lfrom (ex_val s x (nth c (grid q (length (query z))) []))))).
Definition ex_F : factories := mkFact ex_leaf (Some (fun _ _ _ _ _ => 1)) None None.
Definition ex_q : rule := mkRule [0; 1] [1 / 2; 1 / 2].
Lemma ex_p_range z : 0 <= ex_p z <= 1.
Proof. unfold ex_p. destruct z as [|t z]; [lra|]. destruct (Req_EM_T t 0); lra. Qed.
Lemma ex_val_nonneg s x z : 0 <= ex_val s x z.
Proof. pose proof (ex_p_range z). unfold ex_val. destruct (query s); [lra|]. destruct (x n); [|lra]. destruct (Req_EM_T r 1); [lra|]. destruct (Req_EM_T r 0); lra. Qed.
Lemma ex_factories q gf : (forall k h a b, 0 <= gf k h a b) -> factories_ok q gf ex_g ex_F.
Proof.
  intros HG. split; [|split; [|split; [exact HG|discriminate]]].
  - intros s z. split; [reflexivity|]. split; [reflexivity|]. eexists. split; [reflexivity|]. split; [reflexivity|]. split; [reflexivity|]. intros x c Hc. cbn [q_ll ex_leaf i_latent]. apply pr_lfrom, ex_val_nonneg.
  - eexists. split; [reflexivity|]. intros. cbn. lra.
Qed.
Lemma ex_rule : rule_ok ex_q = true.
Proof. unfold rule_ok. cbn [ex_q pts wts length Nat.eqb forallb]. unfold rle. destruct (Rle_dec 0 (1 / 2)); [reflexivity|lra]. Qed.
End Example.
Lemma tree4_reach r : reach tree4 r -> In r [tree4; Region (sc [0; 1]) [[lf 0; lf 1]]; Region (sc [2; 3]) [[lf 2; lf 3]]; lf 0; lf 1; lf 2; lf 3].
Proof.
  intros H. induction H as [|r c H IH (p & Hp & Hc)]; [now left|].
  destruct IH as [<-|[<-|[<-|[<-|[<-|[<-|[<-|[]]]]]]]]; cbn in Hp; (contradiction || destruct Hp as [<-|[]]); cbn in Hc; repeat (destruct Hc as [<-|Hc]; [cbn; tauto|]); destruct Hc.
Qed.
Ltac part2 := split; [cbn; lia|split; [repeat constructor; cbn; lia|]]; cbn; intros v; split;
  [intros H; repeat (destruct H as [<-|H]; [(eexists; split; [left; reflexivity|cbn; tauto]) || (eexists; split; [right; left; reflexivity|cbn; tauto])|]); destruct H
  |intros (c & [<-|[<-|[]]] & H); cbn in H; tauto].
Ltac vs := split; [repeat constructor; cbn; lia|split; [constructor|split; [intros w _ []|discriminate]]].
Example C275_tree4 : rg_ok tree4 /\ single_below tree4.
Proof.
  split.
  - intros r Hr. apply tree4_reach in Hr. cbn [In] in Hr.
    destruct Hr as [<-|[<-|[<-|[<-|[<-|[<-|[<-|[]]]]]]]]; (split; [vs|split; [reflexivity|split; [discriminate|]]]); intros p Hp; cbn in Hp; (contradiction || destruct Hp as [<-|[]]); part2.
  - intros r c Hr Hc. pose proof (tree4_reach c (reach_child _ _ _ Hr Hc)) as H. cbn [In] in H. destruct H as [<-|[<-|[<-|[<-|[<-|[<-|[<-|[]]]]]]]]; cbn; lia.
Qed.
Example C276_tree4 gf : (forall k h a b, (0 <= gf k h a b)%R) -> exists pg m, rg2pic ex_F AUTO tree4 = Ok pg /\ pic2qpc ex_q gf (height (fst pg)) pg = Ok m /\ q_shape m = mkShape 1 1 1 /\
  (forall x e, pr (q_ll m x 0 0 0) = den left_first gf ex_g ex_q x (fst pg) e) /\
  (forall x, sums_over (fun _ => DFin [0%R; 1%R]) (query (pic_scope (fst pg))) (fun y => pr (q_ll m y 0 0 0)) x 1%R).
Proof.
  intros HG. destruct C275_tree4 as [RG SB]. pose proof (ex_factories ex_q gf HG) as HF.
  destruct (proj2 (C275_accepts ex_q gf ex_g ex_F AUTO tree4 RG HF)) as [[u G] E]; [right; split; [discriminate|exact SB]|].
  destruct (C275_result ex_q gf ex_g ex_F AUTO tree4 u G RG HF E) as (S1 & O1 & _ & CV & _ & ND & HGR). destruct (HGR eq_refl) as [P1 EG].
  destruct (mat_means gf ex_g ex_q u ex_rule S1) as (m & EM & S2 & S3 & V). rewrite O1 in *.
  exists (u, G), m. split; [exact E|]. assert (PQ : pic2qpc ex_q gf (height u) (u, G) = Ok m) by (unfold pic2qpc; rewrite ex_rule; cbn [negb fst snd]; now rewrite visit_plain).
  split; [exact PQ|]. split; [exact S3|]. split; [intros x e; apply V; [cbn; lia|reflexivity]|].
  intros x. cbn [fst]. refine (proj2 (C277_total (fun _ => DFin [0%R; 1%R]) gf ex_g ex_q u G (height u) m ex_rule S1 P1 O1 ND _ (le_n _) PQ x (fun _ => 0%R)) _).
  - vm_compute in E. injection E as <- <-. cbn [leaves app In]. intros w Hw.
    assert (LD : forall v z, leaf_density (fun _ => DFin [0%R; 1%R]) ex_g (ex_leaf (sc [v]) z)).
    { intros v z. unfold leaf_density, ex_g, ex_val, ex_leaf, sc. cbn [i_scope query]. split; [|split].
      - intros a y t [<-|[]]. cbn [sums map lsumR]. unfold set_cell, CircuitModel.upd. rewrite Nat.eqb_refl. destruct (Req_EM_T 0 1); [lra|]. destruct (Req_EM_T 0 0); [|lra]. destruct (Req_EM_T 1 1); [|lra]. lra.
      - intros a y c t Ha. unfold set_cell, CircuitModel.upd. destruct (Nat.eqb_spec v a) as [->|]; [exfalso; apply Ha; now left|reflexivity].
      - intros y t Hy. now rewrite (Hy v (or_introl eq_refl)). }
    repeat (destruct Hw as [<-|Hw]; [apply LD|]). destruct Hw.
  - assert (L : forall e ys, quad ex_q ys (fun _ => 1%R) e = 1%R) by (intros e ys; revert e; induction ys as [|y ys IH]; intros e; cbn [quad]; [reflexivity|]; cbn [ex_q pts wts length bsum nth]; rewrite !IH; lra).
    vm_compute in E. injection E as <- <-. cbn [normal fn_of]. repeat split; intros; apply L.
Qed.
