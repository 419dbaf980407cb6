(** mpe never returns an impossible row. *)
From Coq Require Import List Arith Bool Reals Lia Lra.
From Verif Require Import Base ScopeModel CircuitModel CircuitSpec CircuitEval Integral CircuitMarg CircuitProps CircuitExamples
  SampleModel SampleSpec SampleExp SampleProofs SampleTop SampleApi SampleKeep SampleExamples EmModel FactorModel StackModel StackSpec StackProofs MpeSpec MpeProofs P_Sample.
Import ListNotations.
Local Open Scope R_scope.

(** C304.  Discrete (finite or countable) variables. *)
Theorem C304_mpe_evidence : forall D W m s e, (forall v, D v <> DReal) ->
  built m -> aligned m -> ll_shape m = Ok s -> (0 < repetitions s)%nat -> (forall v, vars m v -> (v < W)%nat) ->
  modes_possible D m -> sums_positive m e -> joint m e <> 0 ->
  exists y, sample_with_evidence true W m e = Ret y /\ joint m y <> 0 /\
    (forall v, e v <> None -> y v = e v) /\ (forall v, vars m v -> y v <> None) /\ (forall v, ~ vars m v -> y v = e v).
Proof.
  intros D W m s e HD B A L Hr HW M SP J. destruct (mpe_evidence D HD W m s e B A L Hr HW M SP J) as (y & E & P).
  exists y. split; [exact E|]. split; [exact P|].
  destruct (C11_evidence_keeps true W m e y B) as (C1 & C2 & C3); [rewrite E; constructor|]. auto.
Qed.
Print Assumptions C304_mpe_evidence.

(** without evidence on the scope *)
Theorem C304_mpe : forall D W m s x, (forall v, D v <> DReal) ->
  built m -> aligned m -> ll_shape m = Ok s -> (0 < repetitions s)%nat -> (forall v, vars m v -> (v < W)%nat) ->
  modes_possible D m -> (forall v, vars m v -> x v = None) ->
  exists y, sample true W m x = Ret y /\ joint m y <> 0 /\ (forall v, vars m v -> y v <> None) /\ (forall v, ~ vars m v -> y v = x v).
Proof.
  intros D W m s x HD B A L Hr HW M Hx. destruct (mpe_plain D HD W m s x B A L Hr HW M Hx) as (y & E & P).
  exists y. split; [exact E|]. split; [exact P|].
  destruct (C11_sample_keeps true W m x y B) as (C1 & C2); [rewrite E; constructor|]. destruct (C2 HW) as [C3 C4]. auto.
Qed.
Print Assumptions C304_mpe.

Lemma bern_modes q ch rep p : (forall f c r, 0 <= p f c r <= 1) -> modes_possible (fun _ => bits) (MLeaf (bern q ch rep p)).
Proof.
  intros H l f c r [<-|[]] _. cbn. specialize (H f c r). destruct (Rle_dec (p f c r) (1/2)).
  - split; [now left|]. unfold bern_lp. destruct (Req_EM_T 0 1); [lra|]. destruct (Req_EM_T 0 0); [|lra]. rewrite lfrom_Fin by lra. discriminate.
  - split; [right; now left|]. unfold bern_lp. destruct (Req_EM_T 1 1); [|lra]. rewrite lfrom_Fin by lra. discriminate.
Qed.
Example C304_ex : modes_possible (fun _ => bits) exS /\ sums_positive exS e1 /\ joint exS e1 <> 0 /\
  (exists y, sample_with_evidence true 3 exS e1 = Ret y /\ joint exS y <> 0) /\ exists y, sample true 3 exS (fun _ => None) = Ret y /\ joint exS y <> 0.
Proof.
  assert (M : modes_possible (fun _ => bits) exS).
  { intros l f c r Hl HR. refine (bern_modes [0; 2]%nat 2 1 (fun f c _ => if Nat.eqb f c then 1/4 else 1/2) _ l f c r Hl HR). intros g k t. destruct (Nat.eqb g k); lra. }
  assert (HW : forall v, vars exS v -> (v < 3)%nat) by (cbn; intros v [<-|[<-|[]]]; lia).
  assert (J : joint exS e1 <> 0) by (rewrite exS_e1; lra).
  split; [exact M|]. split; [exact exS_sums_positive|]. split; [exact J|]. split.
  - destruct (C304_mpe_evidence (fun _ => bits) 3 exS _ e1 ltac:(discriminate) exS_built exS_aligned exS_shape ltac:(cbn; lia) HW M exS_sums_positive J) as (y & A & B & _). eauto.
  - destruct (C304_mpe (fun _ => bits) 3 exS _ (fun _ => None) ltac:(discriminate) exS_built exS_aligned exS_shape ltac:(cbn; lia) HW M (fun _ _ => eq_refl)) as (y & A & B & _). eauto.
Qed.
