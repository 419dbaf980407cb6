(** The parameters of an inner network are quadrature-normalised (proofs). *)
From Coq Require Import List Arith Bool Reals ZArith Lia Lra.
From Verif Require Import Base ScopeModel RegionModel CircuitModel LayerModel PicModel PicSpec PicGrid TqModel TqSpec.
Import ListNotations.
Local Open Scope R_scope.

Lemma concat_pieces {A} size fuel : (1 <= size)%nat -> forall l : list A, (length l < fuel)%nat -> concat (pieces fuel size l) = l.
Proof.
  intros Hs. induction fuel as [|fuel IH]; intros l Hl; [lia|]. cbn [pieces]. destruct (Nat.leb_spec (length l) size) as [H|H]; [cbn [concat]; apply app_nil_r|].
  cbn [concat]. rewrite IH by (rewrite skipn_length; lia). apply firstn_skipn.
Qed.
Lemma concat_chunk {A} n (l : list A) : (1 <= n)%nat -> concat (chunk n l) = l.
Proof.
  intros Hn. unfold chunk. destruct l as [|a l]; [reflexivity|]. apply concat_pieces; [|lia].
  apply Nat.div_le_lower_bound; cbn [length]; lia.
Qed.

Lemma map_chunk {A B} (f : A -> B) n l : (1 <= n)%nat -> concat (map (map f) (chunk n l)) = map f l.
Proof. intros Hn. now rewrite <- concat_map, concat_chunk. Qed.

Section Param.
Variable q : rule.
Variable eps : R.
Variable n_chunks : nat.
Hypothesis HN : (1 <= n_chunks)%nat.
Hypothesis HW : length (wts q) = length (pts q).
Variable L : nat -> list R -> R.
Let K := length (pts q).

Lemma logits_eq g f : logits q eps n_chunks g L f = map (fun z => L f z + eps) (grid q (num_dim g)).
Proof. unfold logits. rewrite map_chunk by exact HN. now rewrite map_map. Qed.

Lemma grid1 i : (i < K)%nat -> nth i (grid q 1) [] = [nth i (pts q) 0].
Proof.
  intros H. pose proof (grid_S q HW 0%nat i 0%nat H) as E. cbn [Nat.pow] in E. rewrite Nat.mul_1_r, Nat.add_0_r in E. apply E. lia.
Qed.
Lemma grid2 i j : (i < K)%nat -> (j < K)%nat -> nth (i * K + j) (grid q 2) [] = [nth i (pts q) 0; nth j (pts q) 0].
Proof.
  intros H1 H2. assert (E : (i * K + j = i * K ^ 1 + j)%nat) by (cbn [Nat.pow]; lia).
  rewrite E. unfold K. rewrite (grid_S q HW 1 i j) by (try exact H1; cbn [Nat.pow]; fold K; lia). f_equal. now apply grid1.
Qed.
Lemma grid3 i j k : (i < K)%nat -> (j < K)%nat -> (k < K)%nat -> nth ((i * K + j) * K + k) (grid q 3) [] = [nth i (pts q) 0; nth j (pts q) 0; nth k (pts q) 0].
Proof.
  intros H1 H2 H3. assert (E : ((i * K + j) * K + k = i * K ^ 2 + (j * K + k))%nat) by (cbn [Nat.pow]; lia).
  rewrite E. unfold K. rewrite (grid_S q HW 2 i) by (try exact H1; cbn [Nat.pow]; fold K; nia). f_equal. now apply grid2.
Qed.
Lemma nth_logits g f i zs : (i < K ^ num_dim g)%nat -> nth i (grid q (num_dim g)) [] = zs -> nth i (logits q eps n_chunks g L f) 0 = L f zs + eps.
Proof.
  intros Hi <-. rewrite logits_eq. rewrite (nth_indep _ 0 (L f [] + eps)) by (rewrite map_length, grid_length; exact Hi).
  now rewrite (map_nth (fun z => L f z + eps)).
Qed.

Lemma lsum_seq (F : nat -> R) n : lsumR (map F (seq 0 n)) = bsum n F.
Proof.
  induction n as [|n IH]; [reflexivity|]. rewrite seq_S, map_app, lsumR_app, IH. cbn. lra.
Qed.
Lemma flat_sum {A B} (F : A -> list B) (G : B -> R) l : lsumR (map G (flat_map F l)) = lsumR (map (fun a => lsumR (map G (F a))) l).
Proof. induction l as [|a l IH]; [reflexivity|]. cbn [flat_map map lsumR]. now rewrite map_app, lsumR_app, IH. Qed.
Lemma sum1 (F : list nat -> R) n : lsumR (map F (cartesian (repeat (seq 0 n) 1))) = bsum n (fun i => F [i]).
Proof.
  cbn [repeat cartesian]. rewrite flat_sum. cbn [map lsumR]. rewrite lsum_seq. apply bsum_ext. intros i _. lra.
Qed.
Lemma sum2 (F : list nat -> R) n : lsumR (map F (cartesian (repeat (seq 0 n) 2))) = bsum n (fun i => bsum n (fun j => F [i; j])).
Proof.
  change (repeat (seq 0 n) 2) with (seq 0 n :: repeat (seq 0 n) 1). cbn [cartesian]. rewrite flat_sum, lsum_seq. apply bsum_ext. intros i _.
  rewrite map_map. now rewrite (sum1 (fun v => F (i :: v))).
Qed.

Lemma param_cp1 F f a : (a < K)%nat -> param q eps n_chunks (mkArgs 1 F [1%nat] [1%nat]) L f [a] = normalise q (fun z => L f [z] + eps) a.
Proof.
  intros Ha. unfold param, normalise, denom. cbn [norm_dim length]. cbv zeta. rewrite sum1. cbv beta. fold K.
  assert (H : forall i, (i < K)%nat -> logit q eps n_chunks (mkArgs 1 F [1%nat] [1%nat]) L f [i] = L f [nth i (pts q) 0] + eps).
  { intros i Hi. unfold logit. apply nth_logits; cbn [num_dim unperm perm_dim pos seq map nth ravel fold_left Nat.eqb Nat.pow]; [fold K; lia|]. rewrite Nat.mul_0_l. cbn [Nat.add]. now apply grid1. }
  rewrite H by exact Ha. unfold w_mesh at 2. cbn [norm_dim fold_right Nat.sub nth]. unfold Rdiv.
  assert (EB : bsum K (fun i => logit q eps n_chunks (mkArgs 1 F [1%nat] [1%nat]) L f (set_axes [1%nat] [i] [a]) * w_mesh q (mkArgs 1 F [1%nat] [1%nat]) (set_axes [1%nat] [i] [a])) = bsum K (fun j => (L f [nth j (pts q) 0] + eps) * nth j (wts q) 0)).
  { apply bsum_ext. intros i Hi. cbn [set_axes firstn skipn Nat.sub app]. rewrite H by exact Hi. unfold w_mesh. cbn [norm_dim fold_right Nat.sub nth]. ring. }
  rewrite EB. ring.
Qed.
Lemma param_cp2 F f a o : (a < K)%nat -> (o < K)%nat -> param q eps n_chunks (mkArgs 2 F [2%nat; 1%nat] [1%nat]) L f [a; o] = normalise q (fun z => L f [nth o (pts q) 0; z] + eps) a.
Proof.
  intros Ha Ho. unfold param, normalise, denom. cbn [norm_dim length]. cbv zeta. rewrite sum1. cbv beta. fold K.
  assert (H : forall i, (i < K)%nat -> logit q eps n_chunks (mkArgs 2 F [2%nat; 1%nat] [1%nat]) L f [i; o] = L f [nth o (pts q) 0; nth i (pts q) 0] + eps).
  { intros i Hi. unfold logit. apply nth_logits; cbn [num_dim unperm perm_dim pos seq map nth ravel fold_left Nat.eqb Nat.pow]; fold K; [nia|]. rewrite Nat.mul_0_l. cbn [Nat.add]. now apply grid2. }
  rewrite H by exact Ha. unfold w_mesh at 2. cbn [norm_dim fold_right Nat.sub nth]. unfold Rdiv.
  assert (EB : bsum K (fun i => logit q eps n_chunks (mkArgs 2 F [2%nat; 1%nat] [1%nat]) L f (set_axes [1%nat] [i] [a; o]) * w_mesh q (mkArgs 2 F [2%nat; 1%nat] [1%nat]) (set_axes [1%nat] [i] [a; o])) = bsum K (fun j => (L f [nth o (pts q) 0; nth j (pts q) 0] + eps) * nth j (wts q) 0)).
  { apply bsum_ext. intros i Hi. cbn [set_axes firstn skipn Nat.sub app]. rewrite H by exact Hi. unfold w_mesh. cbn [norm_dim fold_right Nat.sub nth]. ring. }
  rewrite EB. ring.
Qed.
Lemma param_tk1 F f a b : (a < K)%nat -> (b < K)%nat -> param q eps n_chunks (mkArgs 2 F [1%nat; 2%nat] [1%nat; 2%nat]) L f [a; b] = normalise2 q (fun z y => L f [z; y] + eps) a b.
Proof.
  intros Ha Hb. unfold param, normalise2, denom. cbn [norm_dim length]. cbv zeta. rewrite sum2. cbv beta. fold K.
  assert (H : forall i j, (i < K)%nat -> (j < K)%nat -> logit q eps n_chunks (mkArgs 2 F [1%nat; 2%nat] [1%nat; 2%nat]) L f [i; j] = L f [nth i (pts q) 0; nth j (pts q) 0] + eps).
  { intros i j Hi Hj. unfold logit. apply nth_logits; cbn [num_dim unperm perm_dim pos seq map nth ravel fold_left Nat.eqb Nat.pow]; fold K; [nia|]. rewrite Nat.mul_0_l. cbn [Nat.add]. now apply grid2. }
  rewrite H by assumption. unfold w_mesh at 2. cbn [norm_dim fold_right Nat.sub nth]. unfold Rdiv.
  match goal with |- _ * / ?A * _ = _ => assert (EB : A = bsum K (fun a => bsum K (fun b => (L f [nth a (pts q) 0; nth b (pts q) 0] + eps) * (nth a (wts q) 0 * nth b (wts q) 0)))) end.
  { apply bsum_ext. intros i Hi. apply bsum_ext. intros j Hj. cbn [set_axes firstn skipn Nat.sub app]. rewrite H by assumption. unfold w_mesh. cbn [norm_dim fold_right Nat.sub nth]. ring. }
  rewrite EB. ring.
Qed.
Lemma param_tk2 F f a b o : (a < K)%nat -> (b < K)%nat -> (o < K)%nat -> param q eps n_chunks (mkArgs 3 F [3%nat; 2%nat; 1%nat] [1%nat; 2%nat]) L f [a; b; o] = normalise2 q (fun z y => L f [nth o (pts q) 0; y; z] + eps) a b.
Proof.
  intros Ha Hb Ho. unfold param, normalise2, denom. cbn [norm_dim length]. cbv zeta. rewrite sum2. cbv beta. fold K.
  assert (H : forall i j, (i < K)%nat -> (j < K)%nat -> logit q eps n_chunks (mkArgs 3 F [3%nat; 2%nat; 1%nat] [1%nat; 2%nat]) L f [i; j; o] = L f [nth o (pts q) 0; nth j (pts q) 0; nth i (pts q) 0] + eps).
  { intros i j Hi Hj. unfold logit. apply nth_logits; cbn [num_dim unperm perm_dim pos seq map nth ravel fold_left Nat.eqb Nat.pow]; fold K; [assert (i + K * (j + K * o) < K * (K * K))%nat by nia; nia|]. rewrite Nat.mul_0_l. cbn [Nat.add]. now apply grid3. }
  rewrite H by assumption. unfold w_mesh at 2. cbn [norm_dim fold_right Nat.sub nth]. unfold Rdiv.
  match goal with |- _ * / ?A * _ = _ => assert (EB : A = bsum K (fun a => bsum K (fun b => (L f [nth o (pts q) 0; nth b (pts q) 0; nth a (pts q) 0] + eps) * (nth a (wts q) 0 * nth b (wts q) 0)))) end.
  { apply bsum_ext. intros i Hi. apply bsum_ext. intros j Hj. cbn [set_axes firstn skipn Nat.sub app]. rewrite H by assumption. unfold w_mesh. cbn [norm_dim fold_right Nat.sub nth]. ring. }
  rewrite EB. ring.
Qed.
End Param.
