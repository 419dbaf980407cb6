(** C283, C284: PICs with function groups (C-sharing), pipeline.py 411-434, 509-568. *)
From Coq Require Import List Arith Bool Reals Lia Lra FunctionalExtensionality.
From Verif Require Import Base ScopeModel ScopeProofs RegionModel RegionSpec RegionProofs CircuitModel Integral LayerModel PicModel PicSpec PicGrid PicMat PicVisit PicRg PicTop PicMass PicShare PicHeads P_Pic.
Import ListNotations.
Local Open Scope nat_scope.

(** every new group is C-sharing: one head per integral *)
Definition c_sharing (F : factories) : Prop := exists sh, group_factory F = Some sh /\ forall d z y, sh d z y = true.
(** every partition has two regions *)
Definition two_way (root : region) : Prop := forall r p, reach root r -> In p (r_children r) -> length p = 2.

Lemma leaf_strategy F root : r_children root = [] -> rg2pic F CP root = rg2pic F AUTO root.
Proof. intros H. destruct root as [s ps]. cbn in H. subst ps. reflexivity. Qed.
Lemma share_fuel q gf g F strat root u G : rule_ok q = true -> rg_ok root -> two_way root -> factories_ok q gf g F -> c_sharing F ->
  rg2pic F strat root = Ok (u, G) -> exists n, forall fuel, n <= fuel -> pic2qpc q gf fuel (u, G) = mat gf q u.
Proof.
  intros RO RG HB HF (sh & EF & HC) E. destruct (C275_result q gf g F strat root u G RG HF E) as (S1 & _).
  assert (E' : exists st, st <> CP /\ rg2pic F st root = Ok (u, G)).
  { destruct strat; [exists AUTO; split; [discriminate|exact E]|exists TUCKER; split; [discriminate|exact E]|]. exists AUTO. split; [discriminate|]. rewrite <- leaf_strategy; [exact E|].
    destruct (proj1 (C275_accepts q gf g F CP root RG HF) (ex_intro _ _ E)) as [H|[H _]]; [exact H|congruence]. }
  destruct E' as (st & NC & E'). destruct (rg2pic_grp q gf g F HF sh EF HC st root u G NC RG HB E') as [SG GS].
  destruct (visit_grp q gf g G RO SG (S (rdepth root)) u S1 GS) as (N & HN). exists N. intros fuel Hf. unfold pic2qpc. rewrite RO. cbn [negb fst snd]. now apply HN.
Qed.

(** C283: with C-sharing and two-way partitions pic2qpc succeeds on whatever rg2pic built, and
    the circuit computes the PIC in which head [h] of group [k] is the weighting function of
    the [h]-th integral of that group *)
Theorem C283_end_to_end q gf g F strat root pg : rule_ok q = true -> rg_ok root -> two_way root -> factories_ok q gf g F -> c_sharing F ->
  rg2pic F strat root = Ok pg ->
  exists m n, (forall fuel, n <= fuel -> pic2qpc q gf fuel pg = Ok m) /\
    (forall v, In v (query (q_scope m)) <-> In v (query (r_scope root))) /\ q_shape m = mkShape 1 1 1 /\
    (forall x e, pr (q_ll m x 0 0 0) = den left_first gf g q x (fst pg) e).
Proof.
  intros RO RG HB HF HC E. destruct pg as [u G]. destruct (C275_result q gf g F strat root u G RG HF E) as (S1 & O1 & _ & CV & _).
  destruct (share_fuel q gf g F strat root u G RO RG HB HF HC E) as (n & Hn). destruct (mat_means gf g q u RO S1) as (m & Em & B & C & V). rewrite O1 in *.
  exists m, n. split; [intros fuel Hf; rewrite Hn by exact Hf; exact Em|]. split; [intros v; now rewrite B|]. split; [exact C|]. intros x e. cbn [fst]. apply V; [cbn; lia|reflexivity].
Qed.
(** C284: the mass of the circuit, as in C277 *)
Theorem C284_marginal D q gf g F strat root u G : rule_ok q = true -> rg_ok root -> two_way root -> factories_ok q gf g F -> c_sharing F ->
  rg2pic F strat root = Ok (u, G) -> (forall i, In i (leaves u) -> leaf_density D g i) ->
  exists n, forall fuel m, n <= fuel -> pic2qpc q gf fuel (u, G) = Ok m ->
  forall v x, In v (query (r_scope root)) -> sums (D v) (fun a => pr (q_ll m (set_cell x v (Some a)) 0 0 0)) (pr (q_ll m (set_cell x v None) 0 0 0)).
Proof.
  intros RO RG HB HF HC E HL. destruct (C275_result q gf g F strat root u G RG HF E) as (S1 & O1 & _ & CV & _).
  destruct (share_fuel q gf g F strat root u G RO RG HB HF HC E) as (n & Hn). exists n. intros fuel m Hf EQ v x Hv. rewrite (Hn fuel Hf) in EQ.
  destruct (mat_means gf g q u RO S1) as (m' & E' & _ & _ & V). rewrite EQ in E'. injection E' as <-. rewrite O1 in V. set (e0 := fun _ : nat => 0%R).
  assert (W : forall y, pr (q_ll m y 0 0 0) = den left_first gf g q y u e0) by (intros y; apply V; [cbn; lia|reflexivity]).
  rewrite W. apply sums_ext with (f := fun a => den left_first gf g q (set_cell x v (Some a)) u e0); [intros a; now rewrite W|]. apply (den_sums D gf g q v u S1 HL). now apply CV.
Qed.
Theorem C284_total D q gf g F strat root u G : rule_ok q = true -> rg_ok root -> two_way root -> factories_ok q gf g F -> c_sharing F ->
  rg2pic F strat root = Ok (u, G) -> (forall i, In i (leaves u) -> leaf_density D g i) ->
  exists n, forall fuel m, n <= fuel -> pic2qpc q gf fuel (u, G) = Ok m ->
  forall x e, sums_over D (query (pic_scope u)) (fun y => pr (q_ll m y 0 0 0)) x (den left_first gf (fun _ _ _ => 1%R) q x u e) /\
    (normal gf q u -> sums_over D (query (pic_scope u)) (fun y => pr (q_ll m y 0 0 0)) x 1%R).
Proof.
  intros RO RG HB HF HC E HL. destruct (C275_result q gf g F strat root u G RG HF E) as (S1 & O1 & _ & CV & _ & ND & _).
  destruct (share_fuel q gf g F strat root u G RO RG HB HF HC E) as (n & Hn). exists n. intros fuel m Hf EQ x e. rewrite (Hn fuel Hf) in EQ.
  destruct (mat_means gf g q u RO S1) as (m' & E' & _ & _ & V). rewrite EQ in E'. injection E' as <-. rewrite O1 in V.
  assert (W : forall y, den left_first gf g q y u e = pr (q_ll m y 0 0 0)) by (intros y; symmetry; apply V; [cbn; lia|reflexivity]).
  pose proof (den_total D gf g q u x e S1 HL ND) as T.
  assert (T' : sums_over D (query (pic_scope u)) (fun y => pr (q_ll m y 0 0 0)) x (den left_first gf (fun _ _ _ => 1%R) q x u e)).
  { replace (fun y => pr (q_ll m y 0 0 0)) with (fun y => den left_first gf g q y u e); [exact T|]. apply functional_extensionality. exact W. }
  split; [exact T'|]. intros HN. now rewrite (den_normal gf g q u S1 HN x e) in T'.
Qed.
Print Assumptions C283_end_to_end.
Print Assumptions C284_marginal.
Print Assumptions C284_total.

(** ** Example: four variables, the two inner integrals share a group *)
Definition ex_FC : factories := mkFact ex_leaf (Some (fun _ _ _ _ _ => 1%R)) None (Some (fun _ _ _ => true)).
Lemma ex_factories_c q gf : (forall k h a b, (0 <= gf k h a b)%R) -> factories_ok q gf ex_g ex_FC.
Proof. intros HG. exact (ex_factories q gf HG). Qed.
Example C283_tree4 gf : (forall k h a b, (0 <= gf k h a b)%R) ->
  c_sharing ex_FC /\ two_way tree4 /\ exists pg, rg2pic ex_FC AUTO tree4 = Ok pg /\ map (fun gr => length (g_units gr)) (snd pg) = [2] /\
    exists m n, (forall fuel, n <= fuel -> pic2qpc ex_q gf fuel pg = Ok m) /\ q_shape m = mkShape 1 1 1.
Proof.
  intros HG. pose proof (ex_factories_c ex_q gf HG) as HF. destruct C275_tree4 as [RG SB].
  assert (CS : c_sharing ex_FC) by (eexists; split; [reflexivity|reflexivity]).
  assert (TW : two_way tree4).
  { intros r p Hr Hp. apply tree4_reach in Hr. cbn [In] in Hr. destruct Hr as [<-|[<-|[<-|[<-|[<-|[<-|[<-|[]]]]]]]]; cbn in Hp; (contradiction || destruct Hp as [<-|[]]); reflexivity. }
  split; [exact CS|]. split; [exact TW|]. eexists. split; [vm_compute; reflexivity|]. split; [reflexivity|].
  match goal with |- context [pic2qpc _ _ _ ?pg] => destruct (C283_end_to_end ex_q gf ex_g ex_FC AUTO tree4 pg ex_rule RG TW HF CS eq_refl) as (m & n & A & _ & B & _) end.
  exists m, n. now split.
Qed.

(** C285: whatever the region graph and the factories, integrals share a group iff they were
    created for the same depth and numbers of latents: no two groups have the same key, every
    unit of a group matches its key, the sharing type is what the factory returned for the key,
    and the i-th unit of a group uses head i, so no head serves two integrals *)
Theorem C285_groups F strat root u G : rg2pic F strat root = Ok (u, G) ->
  NoDup (map g_key G) /\
  forall k gr, nth_error G k = Some gr -> let '(depth, zd, yd) := g_key gr in
    g_units gr <> [] /\ 0 < zd /\ (exists sh, group_factory F = Some sh /\ g_c gr = sh depth zd yd) /\
    forall h v, nth_error (g_units gr) h = Some v -> exists zs ys c, v = PInt zs ys (Grp k h) c /\ length (query zs) = zd /\ length (query ys) = yd.
Proof.
  intros E. destruct (rg2pic_heads F strat root u G E) as [H ND]. split; [exact ND|]. intros k gr Ek. destruct (H k gr Ek) as (H1 & H2 & H3). destruct (g_key gr) as [[depth zd] yd] eqn:EK. cbn [fst snd] in *.
  split; [exact H1|]. split; [|split; [exact H2|]].
  - destruct (g_units gr) as [|v us] eqn:EU; [congruence|]. destruct (H3 0 v eq_refl) as (zs & ys & c & _ & NZ & L & _). rewrite L. destruct (query zs); [congruence|cbn; lia].
  - intros h v Ev. destruct (H3 h v Ev) as (zs & ys & c & EV & _ & L1 & L2). exists zs, ys, c. repeat split; [exact EV|now symmetry|now symmetry].
Qed.
Print Assumptions C285_groups.
Example C285_tree4 : exists u gr, rg2pic ex_FC AUTO tree4 = Ok (u, [gr]) /\ g_key gr = (1, 1, 2) /\ length (g_units gr) = 2.
Proof. eexists _, _. split; [vm_compute; reflexivity|]. split; reflexivity. Qed.
