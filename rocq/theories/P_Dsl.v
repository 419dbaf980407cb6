(** C47, C143-C145: spflow/dsl.py *)
From Coq Require Import List Arith Bool Lia Lra.
From Verif Require Import Base ScopeModel ScopeProofs CircuitModel CircuitSpec CircuitBasics CircuitEval CircuitProps Integral CircuitMarg MargModel MargProofs CircuitExamples CnetModel CnetProofs DslModel DslSpec DslProofs DslTop DslMain DslEnd.
Import ListNotations.
Local Open Scope R_scope.

(** build succeeds exactly on the well-formed expressions *)
Theorem C47_builds_iff : forall e, Forall built (emods e) -> ((exists m, build (VExpr e) = Ok m) <-> wellformed e).
Proof.
  intros e B. split.
  - intros (m & E). apply (ebuild_sound e B m E).
  - intros W. now apply ebuild_complete.
Qed.

(** and returns a valid circuit over the expression's variables, of the expected shape *)
Theorem C47_result : forall e m, Forall built (emods e) -> build (VExpr e) = Ok m ->
  built m /\ out_shape m = eshape e /\
  (forall v, In v (query (scope_of m)) <-> evar e v) /\ (forall v, In v (evidence (scope_of m)) <-> eevid e v).
Proof. intros e m B E. apply (ebuild_sound e B m E). Qed.

(** the density is the arithmetic of the source, divided by the total weight *)
Theorem C47_density : forall Rn on p m,
  Forall (fun k => built k /\ aligned k /\ uniform Rn k /\ features (out_shape k) = 1%nat) (mods p) ->
  inner_normalised p -> build_src on p = Ok m ->
  built m /\ aligned m /\ uniform Rn m /\ features (out_shape m) = 1%nat /\ 0 < total p /\
  forall x c r, (c < channels (out_shape m))%nat -> (r < Rn)%nat -> prob m x 0 c r = arith (fun k => prob k x 0 c r) p / total p.
Proof. intros Rn on p m PL N E. destruct (build_src_density Rn on p m PL N E) as ((B & A & U & F) & T & D). auto 10. Qed.

(** with normalised leaves the result is a probability distribution *)
Theorem C47_normalised : forall Rn D on p m c r,
  Forall (fun k => built k /\ aligned k /\ uniform Rn k /\ features (out_shape k) = 1%nat) (mods p) ->
  Forall (leaves_norm D) (mods p) -> inner_normalised p -> build_src on p = Ok m ->
  (c < channels (out_shape m))%nat -> (r < Rn)%nat ->
  forall x, sums_over D (query (scope_of m)) (fun y => prob m y 0 c r) x 1.
Proof.
  intros Rn D on p m c r PL L N E Hc Hr. destruct (build_src_density Rn on p m PL N E) as ((B & A & U & F) & _ & _).
  pose proof (uniform_ll m Rn (built_wf _ B) U) as [LS RR].
  apply (c01_scope D m (out_shape m)); auto.
  - exact (build_src_leaves (leaf_norm D) on p m L E).
  - split; [rewrite F; lia|]. split; [exact Hc|]. rewrite RR. exact Hr.
Qed.

(** sums may be bracketed in any way: same mixture, same exceptions *)
Theorem C47_bracketing : forall on p q r, run on (SAdd (SAdd p q) r) = run on (SAdd p (SAdd q r)).
Proof. exact sum_bracketing. Qed.

(** entering dsl() only gives meaning to expressions that raised outside it *)
Theorem C47_conservative : forall p v, run false p = Ok v -> run true p = Ok v.
Proof. exact run_on. Qed.

(** whatever happens inside, leaving the block restores Module's operators; uses
    outside a block see the original operators, uses inside see dsl()'s *)
Theorem C47_restores : forall p o n o' n' t raised, exec p o n = (o', n', t, raised) ->
  o' = o /\
  forall i u, In (i, u) t -> (uses false p i /\ u = o) \/ (uses true p i /\ exists k, (n <= k)%nat /\ u = patched k).
Proof.
  intros p o n o' n' t x E. destruct (exec_spec p o n o' n' t x E) as (H & _ & K). split; [exact H|].
  intros i u Hi. destruct (K i u Hi) as [?|[U (k & Hk & Eu)]]; [now left|]. right. split; [exact U|]. exists k. split; [lia|exact Eu].
Qed.

(** contexts entered and left in properly nested order restore the operators too *)
Theorem C47_nested : forall l o n saved, nested l -> events l o n saved = o.
Proof.
  intros l o n saved H. destruct (nested_events l H o n saved []) as (n' & s' & _ & E & _). rewrite app_nil_r in E. exact E.
Qed.

Print Assumptions C47_builds_iff.
Print Assumptions C47_result.
Print Assumptions C47_density.
Print Assumptions C47_normalised.
Print Assumptions C47_bracketing.
Print Assumptions C47_conservative.
Print Assumptions C47_restores.
Print Assumptions C47_nested.

(** Examples: Bernoulli leaves over variables 0 and 1 *)
Definition lf (v : nat) (p : R) : module := MLeaf (bern [v] 1 1 (fun _ _ _ => p)).
Lemma lf_plain v p : built (lf v p) /\ aligned (lf v p) /\ uniform 1 (lf v p) /\ features (out_shape (lf v p)) = 1%nat.
Proof.
  split; [|cbn; auto]. apply b_leaf, bern_ok; try lia; [discriminate|]. repeat constructor. intros [].
Qed.
Lemma rleb_pos w : 0 < w -> rleb w 0 = false.
Proof. intros H. apply rleb_false. lra. Qed.

(** with dsl(): build(0.4 * A0 * B0 + 0.6 * A1 * B1) *)
Definition exSrc : src :=
  SAdd (SMul (SMul (SNum (4/10)) (SMod (lf 0 (1/4)))) (SMod (lf 1 (1/2))))
       (SMul (SMul (SNum (6/10)) (SMod (lf 0 (3/4)))) (SMod (lf 1 (1/3)))).
Definition exE : expr :=
  ESum [(4/10, EProd [ETerm (lf 0 (1/4)); ETerm (lf 1 (1/2))]); (6/10, EProd [ETerm (lf 0 (3/4)); ETerm (lf 1 (1/3))])].
Lemma exSrc_run : run true exSrc = Ok (VExpr exE).
Proof.
  unfold exSrc. cbn [run bind pymul]. unfold mk_weighted. rewrite !rleb_pos by lra. cbn [bind as_expr pymul]. unfold mk_weighted. rewrite !rleb_pos by lra. cbn [bind pyadd].
  unfold mk_sumexpr. cbn [length Nat.ltb Nat.leb existsb fst]. rewrite !rleb_pos by lra. reflexivity.
Qed.
Lemma prod_wf p q : wellformed (EProd [ETerm (lf 0 p); ETerm (lf 1 q)]).
Proof.
  constructor.
  - cbn. lia.
  - repeat constructor.
  - repeat constructor. cbn. intros v [<-|[]] [E|[]]. discriminate.
  - intros x y Hx Hy. destruct Hx as [<-|[<-|[]]], Hy as [<-|[<-|[]]]; reflexivity.
  - intros x y Hx Hy. destruct Hx as [<-|[<-|[]]], Hy as [<-|[<-|[]]]; reflexivity.
Qed.
Lemma exE_wf : wellformed exE.
Proof.
  constructor.
  - cbn. lia.
  - repeat constructor; cbn; lra.
  - cbn [map snd]. constructor; [apply prod_wf|constructor; [apply prod_wf|constructor]].
  - intros a b Ha Hb v. cbn in Ha, Hb. destruct Ha as [<-|[<-|[]]], Hb as [<-|[<-|[]]]; cbn; tauto.
  - intros x y Hx Hy. destruct Hx as [<-|[<-|[]]], Hy as [<-|[<-|[]]]; reflexivity.
  - repeat constructor.
  - intros x y Hx Hy. destruct Hx as [<-|[<-|[]]], Hy as [<-|[<-|[]]]; reflexivity.
Qed.
Lemma exSrc_plain : Forall (fun k => built k /\ aligned k /\ uniform 1 k /\ features (out_shape k) = 1%nat) (mods exSrc).
Proof. repeat (apply Forall_cons; [apply lf_plain|]). constructor. Qed.
Example C47_meets : exists m, build_src true exSrc = Ok m /\ inner_normalised exSrc /\ total exSrc = 1 /\
  Forall (leaves_norm (fun _ => bits)) (mods exSrc) /\ channels (out_shape m) = 1%nat /\
  forall x, prob m x 0 0 0 = 4/10 * prob (lf 0 (1/4)) x 0 0 0 * prob (lf 1 (1/2)) x 0 0 0 + 6/10 * prob (lf 0 (3/4)) x 0 0 0 * prob (lf 1 (1/3)) x 0 0 0.
Proof.
  assert (B : Forall built (emods exE)) by (repeat (apply Forall_cons; [apply lf_plain|]); constructor).
  destruct (proj2 (C47_builds_iff exE B) exE_wf) as (m & E). exists m.
  assert (ES : build_src true exSrc = Ok m) by (unfold build_src; rewrite exSrc_run; exact E).
  assert (N : inner_normalised exSrc) by (cbn; repeat split; intros; discriminate).
  assert (T : total exSrc = 1) by (unfold total; cbn; lra).
  assert (C : channels (out_shape m) = 1%nat) by (destruct (C47_result exE m B E) as (_ & -> & _); reflexivity).
  split; [exact ES|]. split; [exact N|]. split; [exact T|]. split.
  { repeat (apply Forall_cons; [constructor; [|constructor]; apply bern_norm; intros; lra|]). constructor. }
  split; [exact C|]. intros x. destruct (C47_density 1 true exSrc m exSrc_plain N ES) as (_ & _ & _ & _ & _ & D).
  rewrite D by (rewrite ?C; lia). rewrite T. unfold exSrc. cbn [arith]. field.
Qed.

(** a raising use inside nested blocks, caught outside *)
Definition none4 : ops := mkOps None None None None.
Example C47_restores_example :
  exec (PSeq (PTry (PWith (PSeq (PUse 1) (PWith (PSeq (PUse 2) PRaise)))) PSkip) (PUse 3)) none4 0
  = (none4, 8%nat, [(1%nat, patched 0); (2%nat, patched 4); (3%nat, none4)], false).
Proof. reflexivity. Qed.
Example C47_nested_example : nested [Enter 0; Enter 1; Exit 1; Exit 0].
Proof. apply (n_wrap 0 [Enter 1; Exit 1]); [apply (n_wrap 1 []); [constructor|intros []]|]. cbn. intros [E|[E|[]]]; discriminate. Qed.

(** C143: two contexts that overlap without nesting leave the class patched. *)
Theorem C143_overlap_refuted : forall o n saved, events [Enter 0; Enter 1; Exit 0; Exit 1] o n saved = patched n.
Proof. reflexivity. Qed.
Example C143_differs : patched 0 <> none4. Proof. discriminate. Qed.
Print Assumptions C143_overlap_refuted.

(** C144: a weight inside a product.  Two spellings of the same arithmetic: with the
    weight first the mixture builds, with the weight on the second factor it raises. *)
Definition w_first : src := SAdd (SMul (SMul (SNum (1/2)) (STerm (lf 0 (1/4)))) (STerm (lf 1 (1/2))))
                                 (SMul (SMul (SNum (1/2)) (STerm (lf 0 (3/4)))) (STerm (lf 1 (1/3)))).
Definition w_second : src := SAdd (SMul (SNum 1) (SMul (STerm (lf 0 (1/4))) (SMul (SNum (1/2)) (STerm (lf 1 (1/2))))))
                                  (SMul (SMul (SNum (1/2)) (STerm (lf 0 (3/4)))) (STerm (lf 1 (1/3)))).
Theorem C144_weight_position_refuted :
  (forall d, arith d w_first = arith d w_second) /\ (forall on, exists m, build_src on w_first = Ok m) /\
  (forall on, (exists v, run on w_second = Ok v) /\ build_src on w_second = Err).
Proof.
  split; [intros d; unfold w_first, w_second; cbn [arith]; ring|]. split; intros on.
  - set (e := ESum [(1/2, EProd [ETerm (lf 0 (1/4)); ETerm (lf 1 (1/2))]); (1/2, EProd [ETerm (lf 0 (3/4)); ETerm (lf 1 (1/3))])]).
    assert (B : Forall built (emods e)) by (repeat (apply Forall_cons; [apply lf_plain|]); constructor).
    destruct (proj2 (C47_builds_iff e B)) as (m & E).
    { constructor.
      - cbn. lia.
      - repeat constructor; cbn; lra.
      - cbn [map snd]. constructor; [apply prod_wf|constructor; [apply prod_wf|constructor]].
      - intros a b Ha Hb v. cbn in Ha, Hb. destruct Ha as [<-|[<-|[]]], Hb as [<-|[<-|[]]]; cbn; tauto.
      - intros x y Hx Hy. destruct Hx as [<-|[<-|[]]], Hy as [<-|[<-|[]]]; reflexivity.
      - repeat constructor.
      - intros x y Hx Hy. destruct Hx as [<-|[<-|[]]], Hy as [<-|[<-|[]]]; reflexivity. }
    exists m. unfold build_src. assert (run on w_first = Ok (VExpr e)) as ->; [|exact E].
    unfold w_first. cbn [run bind pymul]. unfold mk_weighted. rewrite !rleb_pos by lra. cbn [bind as_expr pymul]. unfold mk_weighted. rewrite !rleb_pos by lra. cbn [bind pyadd].
    unfold mk_sumexpr. cbn [length Nat.ltb Nat.leb existsb fst]. rewrite !rleb_pos by lra. reflexivity.
  - assert (run on w_second = Ok (VExpr (ESum [(1, EProd [ETerm (lf 0 (1/4)); EWtd (1/2) (ETerm (lf 1 (1/2)))]); (1/2, EProd [ETerm (lf 0 (3/4)); ETerm (lf 1 (1/3))])]))) as E.
    { unfold w_second. do 6 (cbn [run bind pymul as_expr pyadd orb existsb fst length Nat.ltb Nat.leb]; unfold mk_weighted, mk_sumexpr; rewrite ?rleb_pos by lra; change (2 <? 2)%nat with false; cbv iota). reflexivity. }
    split; [eauto|]. unfold build_src. rewrite E. reflexivity.
Qed.
Print Assumptions C144_weight_position_refuted.

(** C145: a mixture inside a mixture is renormalised on its own: 0.5*(2*A + 2*B) + 0.5*C
    gives A and B weight 1/4 each, the arithmetic of the source 2/5 each. *)
Definition nested_src (A B C : module) : src :=
  SAdd (SMul (SNum (1/2)) (SAdd (SMul (SNum 2) (STerm A)) (SMul (SNum 2) (STerm B)))) (SMul (SNum (1/2)) (STerm C)).
Lemma nested_run on A B C : run on (nested_src A B C) = Ok (VExpr (ESum [(1/2, ESum [(2, ETerm A); (2, ETerm B)]); (1/2, ETerm C)])).
Proof.
  unfold nested_src. do 6 (cbn [run bind pymul as_expr pyadd orb existsb fst length Nat.ltb Nat.leb]; unfold mk_weighted, mk_sumexpr; rewrite ?rleb_pos by lra; change (2 <? 2)%nat with false; cbv iota). reflexivity.
Qed.
Theorem C145_nested_refuted : forall Rn on A B C m,
  Forall (fun k => built k /\ aligned k /\ uniform Rn k /\ features (out_shape k) = 1%nat) [A; B; C] ->
  build_src on (nested_src A B C) = Ok m ->
  forall x r, (r < Rn)%nat ->
    prob m x 0 0 r = 1/4 * prob A x 0 0 r + 1/4 * prob B x 0 0 r + 1/2 * prob C x 0 0 r /\
    arith (fun k => prob k x 0 0 r) (nested_src A B C) / total (nested_src A B C)
      = 2/5 * prob A x 0 0 r + 2/5 * prob B x 0 0 r + 1/5 * prob C x 0 0 r.
Proof.
  intros Rn on A B C m PL E x r Hr. unfold build_src in E. rewrite nested_run in E. cbn [bind build] in E. split.
  - destruct (ebuild_dens Rn (ESum [(1/2, ESum [(2, ETerm A); (2, ETerm B)]); (1/2, ETerm C)]) PL m E) as [PM D]. unfold prob, loglik. etransitivity; [apply D|].
    + apply (wf_cpos m (wf_wf1 _ (built_wf _ (proj1 PM)))).
    + exact Hr.
    + cbn [dens map fst lsumR fold_right]. unfold pev. field.
  - unfold total, nested_src. cbn [arith]. field.
Qed.
Print Assumptions C145_nested_refuted.
Example C145_meets : exists m, build_src false (nested_src (lf 0 (1/4)) (lf 0 (1/2)) (lf 0 (3/4))) = Ok m /\
  let x := upd (fun _ => None) 0 (Some 1) in
  prob m x 0 0 0 = 9/16 /\ arith (fun k => prob k x 0 0 0) (nested_src (lf 0 (1/4)) (lf 0 (1/2)) (lf 0 (3/4))) / total (nested_src (lf 0 (1/4)) (lf 0 (1/2)) (lf 0 (3/4))) = 9/20.
Proof.
  set (A := lf 0 (1/4)). set (B := lf 0 (1/2)). set (C := lf 0 (3/4)).
  set (e := ESum [(1/2, ESum [(2, ETerm A); (2, ETerm B)]); (1/2, ETerm C)]).
  assert (PL : Forall (fun k => built k /\ aligned k /\ uniform 1 k /\ features (out_shape k) = 1%nat) [A; B; C]) by (repeat (apply Forall_cons; [apply lf_plain|]); constructor).
  assert (BB : Forall built (emods e)) by (eapply Forall_impl; [|exact PL]; cbn; tauto).
  destruct (proj2 (C47_builds_iff e BB)) as (m & E).
  { constructor.
    - cbn. lia.
    - repeat constructor; cbn; lra.
    - constructor; [|repeat constructor]. constructor.
      + cbn. lia.
      + repeat constructor; cbn; lra.
      + repeat constructor.
      + intros a b Ha Hb v. cbn in Ha, Hb. destruct Ha as [<-|[<-|[]]], Hb as [<-|[<-|[]]]; cbn; tauto.
      + intros x y Hx Hy. destruct Hx as [<-|[<-|[]]], Hy as [<-|[<-|[]]]; reflexivity.
      + repeat constructor.
      + intros x y Hx Hy. destruct Hx as [<-|[<-|[]]], Hy as [<-|[<-|[]]]; reflexivity.
    - intros a b Ha Hb v. cbn in Ha, Hb. destruct Ha as [<-|[<-|[]]], Hb as [<-|[<-|[]]]; cbn; tauto.
    - intros x y Hx Hy. destruct Hx as [<-|[<-|[]]], Hy as [<-|[<-|[]]]; reflexivity.
    - repeat constructor.
    - intros x y Hx Hy. destruct Hx as [<-|[<-|[]]], Hy as [<-|[<-|[]]]; reflexivity. }
  exists m. assert (ES : build_src false (nested_src A B C) = Ok m) by (unfold build_src; rewrite nested_run; exact E).
  split; [exact ES|]. cbn zeta. set (x := upd (fun _ => None) 0 (Some 1)).
  destruct (C145_nested_refuted 1 false A B C m PL ES x 0 ltac:(lia)) as [-> ->].
  assert (K : forall p, 0 <= p -> prob (lf 0 p) x 0 0 0 = p) by (intros p Hp; unfold prob, loglik; cbn; now apply pr_bern_1).
  unfold A, B, C. rewrite !K by lra. lra.
Qed.
