(** Specification vocabulary: summing / integrating a function of one variable
    over its domain, and iterating over several variables. *)
From Coq Require Import Reals List Lra Lia.
From Coquelicot Require Import Coquelicot.
From Verif Require Import Base CircuitModel.
Import ListNotations.
Local Open Scope R_scope.

(** The domain of a variable: finitely many values, the naturals, or the reals. *)
Inductive domain := DFin (l : list R) | DNat | DReal.

(** [sums d g u]: the sum (integral) of [g] over [d] exists and equals [u]. *)
Definition sums (d : domain) (g : R -> R) (u : R) : Prop :=
  match d with
  | DFin l => lsumR (map g l) = u
  | DNat => infinite_sum (fun n => g (INR n)) u
  | DReal => is_RInt_gen g (Rbar_locally m_infty) (Rbar_locally p_infty) u
  end.

(** [sums_over D vs g x u]: summing [g] over all values of the cells [vs] of the
    row, one variable after the other, the other cells as in [x], gives [u]. *)
Fixpoint sums_over (D : nat -> domain) (vs : list nat) (g : row -> R) (x : row) (u : R) : Prop :=
  match vs with
  | [] => g x = u
  | v :: rest => exists h, (forall a, sums_over D rest g (upd x v (Some a)) (h a)) /\ sums (D v) h u
  end.

(** The row [x] with the cells [vs] missing (NaN). *)
Definition set_nan (vs : list nat) (x : row) : row := fun u => if existsb (Nat.eqb u) vs then None else x u.

Lemma sums_ext d f g u : (forall a, f a = g a) -> sums d f u -> sums d g u.
Proof. intros H. replace g with f; [auto|]. apply functional_extensionality, H. Qed.

Lemma infinite_sum_is_series f u : infinite_sum f u <-> is_series f u.
Proof. split; intros H; [now apply is_series_Reals|now apply is_series_Reals]. Qed.

Lemma sums_plus d f g u w : sums d f u -> sums d g w -> sums d (fun a => f a + g a) (u + w).
Proof.
  destruct d as [l| |]; cbn.
  - intros <- <-. apply lsumR_map_plus.
  - rewrite !infinite_sum_is_series. intros A B. exact (is_series_plus _ _ _ _ A B).
  - intros A B. exact (is_RInt_gen_plus _ _ _ _ A B).
Qed.

Lemma sums_scal d k f u : sums d f u -> sums d (fun a => k * f a) (k * u).
Proof.
  destruct d as [l| |]; cbn.
  - intros <-. apply lsumR_map_scal.
  - rewrite !infinite_sum_is_series. intros A. exact (is_series_scal k _ _ A).
  - intros A. exact (is_RInt_gen_scal f k u A).
Qed.

Lemma sums_bsum d n (F : nat -> R -> R) (U : nat -> R) f0 u0 :
  sums d f0 u0 -> (forall i, (i < n)%nat -> sums d (F i) (U i)) -> sums d (fun a => bsum n (fun i => F i a)) (bsum n U).
Proof.
  intros H0 H. induction n as [|n IH]; cbn [bsum].
  - apply sums_ext with (f := fun a => 0 * f0 a); [intros; ring|].
    pose proof (sums_scal d 0 f0 u0 H0) as E. now replace (0 * u0) with 0 in E by ring.
  - apply sums_plus; [apply IH; auto|apply H; lia].
Qed.

Lemma upd_same x v a : upd x v a v = a.
Proof. unfold upd. now rewrite Nat.eqb_refl. Qed.

Lemma upd_other x v a u : u <> v -> upd x v a u = x u.
Proof. unfold upd. intros H. destruct (Nat.eqb_spec u v); congruence. Qed.

Lemma set_nan_In vs x v : In v vs -> set_nan vs x v = None.
Proof.
  intros H. unfold set_nan. replace (existsb (Nat.eqb v) vs) with true; [reflexivity|].
  symmetry. apply existsb_exists. exists v. split; [assumption|apply Nat.eqb_refl].
Qed.

Lemma set_nan_notIn vs x v : ~ In v vs -> set_nan vs x v = x v.
Proof.
  intros H. unfold set_nan. destruct (existsb (Nat.eqb v) vs) eqn:E; [|reflexivity].
  apply existsb_exists in E. destruct E as (w & Hw & E). apply Nat.eqb_eq in E. subst. contradiction.
Qed.

(** The generic step: if summing over one variable is the same as leaving it
    missing, then summing over several variables is. *)
Lemma sums_over_nan D (g : row -> R) (ok : nat -> Prop) :
  (forall v x, ok v -> sums (D v) (fun a => g (upd x v (Some a))) (g (upd x v None))) ->
  forall vs x, NoDup vs -> (forall v, In v vs -> ok v) -> sums_over D vs g x (g (set_nan vs x)).
Proof.
  intros H. induction vs as [|v vs IH]; intros x ND Hok; cbn [sums_over].
  - reflexivity.
  - inversion ND as [|? ? Hv ND']; subst.
    exists (fun a => g (set_nan vs (upd x v (Some a)))). split.
    + intros a. apply IH; [assumption|]. intros; apply Hok; now right.
    + replace (set_nan (v :: vs) x) with (upd (set_nan vs x) v None).
      * apply sums_ext with (f := fun a => g (upd (set_nan vs x) v (Some a))).
        -- intros a. f_equal. apply functional_extensionality. intros u.
           destruct (Nat.eq_dec u v) as [->|Hn].
           ++ rewrite upd_same, set_nan_notIn, upd_same; auto.
           ++ rewrite upd_other by assumption.
              destruct (in_dec Nat.eq_dec u vs); [now rewrite !set_nan_In|].
              rewrite !set_nan_notIn by assumption. now rewrite upd_other.
        -- apply H, Hok. now left.
      * apply functional_extensionality. intros u. unfold upd, set_nan. cbn [existsb].
        destruct (Nat.eqb u v); reflexivity.
Qed.
