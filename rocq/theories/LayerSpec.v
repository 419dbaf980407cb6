(** Distributions over the rows: specification vocabulary for the layers. *)
From Coq Require Import List Arith Bool Lia Lra.
From Verif Require Import Base ScopeModel CircuitModel CircuitSpec CircuitEval Integral CircuitMarg CircuitProps.
Import ListNotations.
Local Open Scope R_scope.

(** [g] (a log-density of rows, NaN cells allowed) is a distribution over the
    variables [vs]: it only looks at them, leaving one of them missing sums it out,
    and with all of them missing the total is one. *)
Record is_dist (D : nat -> domain) (vs : list nat) (g : row -> lval) : Prop := {
  d_local : forall x y, (forall v, In v vs -> x v = y v) -> g x = g y;
  d_marg : forall v x, In v vs -> sums (D v) (fun a => pr (g (upd x v (Some a)))) (pr (g (upd x v None)));
  d_total : forall x, (forall v, In v vs -> x v = None) -> g x = Fin 0 }.

(** such a [g] sums to one over all complete assignments, and summing over some of
    the variables is the same as leaving them missing *)
Lemma is_dist_sums D vs g : is_dist D vs g -> NoDup vs -> forall x, sums_over D vs (fun y => pr (g y)) x 1.
Proof.
  intros [L M T] ND x.
  replace 1 with (pr (g (set_nan vs x))).
  - apply (sums_over_nan D (fun y => pr (g y)) (fun v => In v vs)); auto.
  - rewrite T; [apply pr_Fin0|]. intros v Hv. now apply set_nan_In.
Qed.

Lemma is_dist_marginal D vs g : is_dist D vs g -> forall ws, NoDup ws -> incl ws vs ->
  forall x, sums_over D ws (fun y => pr (g y)) x (pr (g (set_nan ws x))).
Proof. intros [L M T] ws ND I x. apply (sums_over_nan D (fun y => pr (g y)) (fun v => In v vs)); auto. Qed.

(** every feature, channel and repetition of a circuit *)
Lemma circuit_is_dist D m s f c r : built m -> aligned m -> leaves_norm D m -> ll_shape m = Ok s -> in_shape s f c r ->
  is_dist D (nth f (fts m) []) (fun x => loglik m x f c r).
Proof.
  intros B A N S P. constructor.
  - intros x y H. eapply c04_feature; eauto.
  - intros v x Hv.
    assert (Hs := c02 D m s f c r B A N S P [v] x).
    destruct Hs as (h & H1 & H2); [constructor; [easy|constructor]|intros w [->|[]]; exact Hv|].
    cbn [sums_over] in H1. replace (set_nan [v] x) with (upd x v None) in H2.
    + eapply sums_ext; [|exact H2]. intros a. cbn beta. rewrite <- (H1 a). reflexivity.
    + apply functional_extensionality. intros u. unfold upd, set_nan. cbn [existsb]. now rewrite orb_false_r.
  - intros x H. destruct (c03 m s f c r (fun _ => None) B S P (fun v _ => eq_refl)).
    eapply c04_feature; eauto.
Qed.

(** An input of a layer: its shape, its log-likelihoods for every row, and the
    variables of each of its features. *)
Record inp := mkInp { i_sh : shape; i_ll : row -> nat -> nat -> nat -> lval; i_vars : nat -> list nat }.
Definition inp_ok (D : nat -> domain) (i : inp) : Prop :=
  forall f c r, in_shape (i_sh i) f c r -> is_dist D (i_vars i f) (fun x => i_ll i x f c r).
Definition no_inp : inp := mkInp (mkShape 0 0 0) (fun _ _ _ _ => NInf) (fun _ => []).

(** circuits are such inputs *)
Definition inp_of (m : module) (s : shape) : inp := mkInp s (loglik m) (fun f => nth f (fts m) []).
Lemma inp_of_ok D m s : built m -> aligned m -> leaves_norm D m -> ll_shape m = Ok s -> inp_ok D (inp_of m s).
Proof. intros B A N S f c r P. cbn in P |- *. eapply circuit_is_dist; eauto. Qed.

(** no variable occurs in two inputs *)
Definition disjoint_vars (ins : list inp) : Prop := forall i j f g v, (i < length ins)%nat -> (j < length ins)%nat -> i <> j ->
  In v (i_vars (nth i ins no_inp) f) -> ~ In v (i_vars (nth j ins no_inp) g).
