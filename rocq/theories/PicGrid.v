(** Quadrature grids: rows, Kronecker weights and the iterated quadrature. *)
From Coq Require Import List Arith Bool Reals Lia Lra.
From Verif Require Import Base ScopeModel CircuitModel LayerModel LayerProofs PicModel PicSpec.
Import ListNotations.
Local Open Scope R_scope.

Fixpoint upds (e : env) (ys : list nat) (vs : list R) : env :=
  match ys, vs with y :: ys', v :: vs' => upds (upd e y v) ys' vs' | _, _ => e end.
Lemma upds_other ys : forall vs e u, ~ In u ys -> upds e ys vs u = e u.
Proof.
  induction ys as [|y ys IH]; intros [|v vs] e u H; cbn [upds]; try reflexivity. rewrite IH by (intros Hin; apply H; now right).
  unfold upd. destruct (Nat.eqb_spec u y) as [->|]; [exfalso; apply H; now left|reflexivity].
Qed.
Lemma upds_map ys : forall vs e, NoDup ys -> length vs = length ys -> map (upds e ys vs) ys = vs.
Proof.
  induction ys as [|y ys IH]; intros [|v vs] e ND L; cbn in L; try discriminate; [reflexivity|]. inversion ND as [|? ? Hn ND']; subst.
  cbn [upds map]. rewrite IH by (try assumption; lia). rewrite upds_other by exact Hn. unfold upd. now rewrite Nat.eqb_refl.
Qed.

Section Grid.
Variable q : rule.
Let K := length (pts q).
Hypothesis HW : length (wts q) = K.

Lemma grid_length n : length (grid q n) = (K ^ n)%nat.
Proof.
  induction n as [|n IH]; [reflexivity|]. cbn [grid repeat cartesian Nat.pow].
  rewrite (flat_map_const_len _ _ (K ^ n)%nat); [reflexivity|]. intros a _. rewrite map_length. exact IH.
Qed.

Lemma nth_flat {A B} (l : list A) (f : A -> list B) k da db j c : (forall a, In a l -> length (f a) = k) -> (j < length l)%nat -> (c < k)%nat ->
  nth (j * k + c) (flat_map f l) db = nth c (f (nth j l da)) db.
Proof.
  revert j. induction l as [|a l IH]; intros j H Hj Hc; [cbn in Hj; lia|]. cbn [flat_map]. assert (La : length (f a) = k) by (apply H; now left). destruct j as [|j].
  - cbn [Nat.mul Nat.add nth]. apply app_nth1. lia.
  - rewrite app_nth2 by nia. rewrite La. replace (S j * k + c - k)%nat with (j * k + c)%nat by nia. cbn [nth]. apply IH; [intros; apply H; now right|cbn in Hj; lia|exact Hc].
Qed.

Lemma grid_S n j c : (j < K)%nat -> (c < K ^ n)%nat -> nth (j * K ^ n + c) (grid q (S n)) [] = nth j (pts q) 0 :: nth c (grid q n) [].
Proof.
  intros Hj Hc. unfold grid. cbn [repeat cartesian]. rewrite (nth_flat (pts q) _ (K ^ n)%nat 0) by (try assumption; intros; rewrite map_length; apply grid_length).
  rewrite (nth_indep _ [] ((nth j (pts q) 0) :: [])) by (rewrite map_length; setoid_rewrite grid_length; exact Hc). now rewrite (map_nth (cons (nth j (pts q) 0))).
Qed.

Lemma grid_row_length n : forall c, (c < K ^ n)%nat -> length (nth c (grid q n) []) = n.
Proof.
  induction n as [|n IH]; intros c Hc; [cbn in Hc; replace c with 0%nat by lia; reflexivity|].
  assert (P : (K ^ n <> 0)%nat) by (intros E; cbn in Hc; rewrite E in Hc; lia).
  rewrite (Nat.div_mod c (K ^ n)) by exact P. rewrite (Nat.mul_comm (K ^ n)). rewrite grid_S.
  - cbn [length]. rewrite IH; [reflexivity|]. now apply Nat.mod_upper_bound.
  - apply Nat.div_lt_upper_bound; [exact P|]. cbn in Hc. lia.
  - now apply Nat.mod_upper_bound.
Qed.

Lemma grid_app a b : forall i j, (i < K ^ a)%nat -> (j < K ^ b)%nat ->
  nth (i * K ^ b + j) (grid q (a + b)) [] = nth i (grid q a) [] ++ nth j (grid q b) [].
Proof.
  induction a as [|a IH]; intros i j Hi Hj; [cbn in Hi; replace i with 0%nat by lia; reflexivity|].
  assert (P : (K ^ a <> 0)%nat) by (intros E; cbn in Hi; rewrite E in Hi; lia).
  pose proof (Nat.mod_upper_bound i (K ^ a) P) as HM. assert (HD : (i / K ^ a < K)%nat) by (apply Nat.div_lt_upper_bound; [exact P|cbn in Hi; lia]).
  rewrite (Nat.div_mod i (K ^ a)) at 2 by exact P. rewrite (Nat.mul_comm (K ^ a) (i / K ^ a)), grid_S by assumption.
  cbn [app]. rewrite <- IH by assumption.
  replace (i * K ^ b + j)%nat with (i / K ^ a * K ^ (a + b) + (i mod K ^ a * K ^ b + j))%nat.
  - cbn [Nat.add]. apply grid_S; [exact HD|]. rewrite Nat.pow_add_r. nia.
  - rewrite Nat.pow_add_r. pose proof (Nat.div_mod i (K ^ a) P). nia.
Qed.

(** ** Kronecker weights *)
Lemma kron_length a b : length (kron a b) = (length a * length b)%nat.
Proof. unfold kron. apply flat_map_const_len. intros. apply map_length. Qed.
Lemma kron_assoc a b c : kron (kron a b) c = kron a (kron b c).
Proof.
  unfold kron. induction a as [|x a IH]; [reflexivity|]. cbn [flat_map]. rewrite flat_map_app, IH. f_equal.
  clear. induction b as [|y b IH]; [reflexivity|]. cbn [map flat_map]. rewrite map_app, IH. f_equal. rewrite map_map. apply map_ext. intros z. ring.
Qed.
Lemma kron_loop_out n out : kron_loop q n out = match n with O => out | S m => kron out (kron_loop q m (wts q)) end.
Proof.
  revert out. induction n as [|n IH]; intros out; [reflexivity|]. cbn [kron_loop]. rewrite IH. destruct n as [|m]; [reflexivity|]. rewrite (kron_assoc out). f_equal. now rewrite IH.
Qed.
Lemma kron_S n : kron_weights q (S n) = kron (wts q) (kron_weights q n).
Proof.
  cbn [kron_weights]. rewrite kron_loop_out. destruct n as [|m]; [|reflexivity].
  unfold kron. cbn [kron_weights]. clear. induction (wts q) as [|w l IH]; [reflexivity|]. cbn [flat_map map app] in *. f_equal; [ring|exact IH].
Qed.
Lemma kron_weights_length n : length (kron_weights q n) = (K ^ n)%nat.
Proof. induction n as [|n IH]; [reflexivity|]. rewrite kron_S, kron_length, IH, HW. reflexivity. Qed.
Lemma kron_nth n j c : (j < K)%nat -> (c < K ^ n)%nat -> nth (j * K ^ n + c) (kron_weights q (S n)) 0 = nth j (wts q) 0 * nth c (kron_weights q n) 0.
Proof.
  intros Hj Hc. rewrite kron_S. unfold kron. rewrite (nth_flat (wts q) _ (K ^ n)%nat 0) by (try (rewrite HW); try assumption; intros; rewrite map_length; apply kron_weights_length).
  rewrite (nth_indep _ 0 (nth j (wts q) 0 * 0)) by (rewrite map_length, kron_weights_length; exact Hc). now rewrite (map_nth (Rmult (nth j (wts q) 0))).
Qed.
Lemma kron_nonneg n : (forall w, In w (wts q) -> 0 <= w) -> forall c, 0 <= nth c (kron_weights q n) 0.
Proof.
  intros H c. destruct (Nat.ltb_spec c (K ^ n)) as [Hc|Hc]; [|rewrite nth_overflow by (rewrite kron_weights_length; exact Hc); lra].
  revert c Hc. induction n as [|n IH]; intros c Hc; [cbn in Hc; replace c with 0%nat by lia; cbn; lra|].
  assert (P : (K ^ n <> 0)%nat) by (intros E; cbn in Hc; rewrite E in Hc; lia).
  pose proof (Nat.mod_upper_bound c (K ^ n) P) as HM. assert (HD : (c / K ^ n < K)%nat) by (apply Nat.div_lt_upper_bound; [exact P|cbn in Hc; lia]).
  rewrite (Nat.div_mod c (K ^ n)) by exact P. rewrite (Nat.mul_comm (K ^ n)), kron_nth by assumption.
  apply Rmult_le_pos; [apply H, nth_In; rewrite HW; exact HD|now apply IH].
Qed.

(** ** The quadrature as one sum over the grid *)
Lemma quad_grid ys : forall k e, quad q ys k e =
  bsum (K ^ length ys) (fun c => nth c (kron_weights q (length ys)) 0 * k (upds e ys (nth c (grid q (length ys)) []))).
Proof.
  induction ys as [|y ys IH]; intros k e; [cbn; ring|]. cbn [quad length]. cbn [Nat.pow]. rewrite bsum_flat. apply bsum_ext. intros j Hj.
  rewrite IH, <- bsum_scal. apply bsum_ext. intros c Hc. rewrite kron_nth, grid_S by assumption. cbn [upds]. ring.
Qed.
End Grid.
