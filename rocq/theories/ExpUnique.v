(** Sums, integrals and expectations have at most one value. *)
From Coq Require Import List Arith Bool Reals Lia Lra.
From Coquelicot Require Import Coquelicot.
From Verif Require Import Base ScopeModel CircuitModel Integral SampleModel SampleSpec SampleExp.
Import ListNotations.
Local Open Scope R_scope.

Lemma sums_unique d g u v : sums d g u -> sums d g v -> u = v.
Proof.
  destruct d; cbn; intros H1 H2; [congruence|exact (uniqueness_sum _ _ _ H1 H2)|].
  pose proof (is_RInt_gen_unique (V := R_CompleteNormedModule) g u H1) as <-. exact (is_RInt_gen_unique (V := R_CompleteNormedModule) g v H2).
Qed.

Lemma sums_over_unique D vs g : forall x u v, sums_over D vs g x u -> sums_over D vs g x v -> u = v.
Proof.
  induction vs as [|w vs IH]; intros x u v; cbn [sums_over]; [congruence|].
  intros (h & A & B) (h' & A' & B'). apply (sums_unique (D w) h); [assumption|].
  apply (sums_ext (D w) h'); [|assumption]. intros a. exact (IH _ _ _ (A' a) (A a)).
Qed.

Lemma expects_unique {A} D (p : prog A) g : forall u v, expects D p g u -> expects D p g v -> u = v.
Proof.
  induction p as [a| |n w k IH|l f c r k IH]; intros u v; cbn [expects].
  - congruence.
  - tauto.
  - intros (h & H & <-) (h' & H' & <-). apply bsum_ext. intros i Hi. destruct (Req_dec (w i) 0) as [->|N]; [ring|].
    f_equal. apply (IH i); [now apply H|now apply H'].
  - intros (h & H & S) (h' & H' & S').
    apply (sums_unique (D (nth f (query (l_scope l)) 0%nat)) (fun a => pr (l_lp l f c r a) * h a)); [assumption|].
    apply (sums_ext _ (fun a => pr (l_lp l f c r a) * h' a)); [|assumption]. intros a. f_equal. apply (IH a); auto.
Qed.
