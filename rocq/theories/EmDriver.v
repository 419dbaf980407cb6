(** The EM drivers. *)
From Coq Require Import List Arith Bool Lia Lra.
From Verif Require Import Base EmModel.
Import ListNotations.
Local Open Scope R_scope.

(** the value compared against at iteration [i] (-inf before the first) *)
Definition before {state} (ev : state -> fl) (upd : state -> state) (s0 : state) (i : nat) : fl :=
  match i with O => FNInf | S j => ev (Nat.iter j upd s0) end.

Lemma em_loop_spec {state} (ev : state -> fl) upd s0 : forall n j,
  (0 < n)%nat ->
  exists k, em_loop state ev upd n (Nat.iter j upd s0) (before ev upd s0 j) =
     (map (fun i => ev (Nat.iter i upd s0)) (seq j k), Nat.iter (j + k) upd s0) /\
  (1 <= k <= n)%nat /\
  (forall i, (i + 1 < k)%nat -> fle (ev (Nat.iter (j + i) upd s0)) (before ev upd s0 (j + i)) = false) /\
  (k = n \/ fle (ev (Nat.iter (j + (k - 1)) upd s0)) (before ev upd s0 (j + (k - 1))) = true).
Proof.
  induction n as [|n IH]; intros j Hn; [lia|]. cbn [em_loop].
  destruct (fle (ev (Nat.iter j upd s0)) (before ev upd s0 j)) eqn:E.
  - exists 1%nat. cbn [seq map]. rewrite Nat.add_1_r. cbn [Nat.iter]. split; [reflexivity|]. split; [lia|].
    split; [intros; lia|]. right. replace (j + (1 - 1))%nat with j by lia. exact E.
  - destruct n as [|n].
    + exists 1%nat. cbn [em_loop seq map]. rewrite Nat.add_1_r. split; [reflexivity|]. split; [lia|]. split; [intros; lia|]. now left.
    + destruct (IH (S j) ltac:(lia)) as (k & Ek & Hk & Hi & Hl).
      cbn [before] in Ek. change (Nat.iter (S j) upd s0) with (upd (Nat.iter j upd s0)) in Ek. rewrite Ek.
      exists (S k). cbn [seq map]. split; [f_equal; f_equal; lia|]. split; [lia|]. split.
      * intros [|i] H; [rewrite Nat.add_0_r; exact E|]. replace (j + S i)%nat with (S j + i)%nat by lia. apply Hi. lia.
      * destruct Hl as [->|Hl]; [now left|]. right. replace (j + (S k - 1))%nat with (S j + (k - 1))%nat by lia. exact Hl.
Qed.

Lemma c43 {state} (ev : state -> fl) upd n s0 : (0 < n)%nat ->
  exists k, em_driver state ev upd n s0 = Ok (map (fun i => ev (Nat.iter i upd s0)) (seq 0 k), Nat.iter k upd s0) /\
  (1 <= k <= n)%nat /\
  (forall i, (i + 1 < k)%nat -> fle (ev (Nat.iter i upd s0)) (before ev upd s0 i) = false) /\
  (k = n \/ fle (ev (Nat.iter (k - 1) upd s0)) (before ev upd s0 (k - 1)) = true).
Proof.
  intros Hn. destruct (em_loop_spec ev upd s0 n 0 Hn) as (k & E & Hk & Hi & Hl). exists k. cbn [Nat.iter nat_rect before Nat.add] in *.
  unfold em_driver. change (Nat.iter 0 upd s0) with s0 in E. rewrite E. destruct k as [|k]; [lia|].
  split; [reflexivity|]. auto.
Qed.

(** batch [i] is scored in the state reached after the updates on batches 0..i-1 *)
Definition scores {state batch} (acc : state -> batch -> R) (upd : state -> batch -> state) (bs : list batch) (s : state) : list R :=
  map (fun ib => acc (fold_left upd (firstn (fst ib) bs) s) (snd ib)) (combine (seq 0 (length bs)) bs).
Definition rows {batch} (size : batch -> nat) (bs : list batch) : nat := fold_right (fun b n => (size b + n)%nat) 0%nat bs.

Lemma scores_cons {state batch} (acc : state -> batch -> R) upd b bs s :
  scores acc upd (b :: bs) s = acc s b :: scores acc upd bs (upd s b).
Proof.
  unfold scores. cbn [length seq combine map fst snd firstn fold_left]. f_equal.
  rewrite <- seq_shift. 
  assert (forall l, map (fun ib => acc (fold_left upd (firstn (fst ib) (b :: bs)) s) (snd ib)) (combine (map S l) bs)
    = map (fun ib => acc (fold_left upd (firstn (fst ib) bs) (upd s b)) (snd ib)) (combine l bs)) as A.
  { intros l. generalize bs at 2 4 as cs. induction l as [|a l IH]; intros cs; [reflexivity|]. destruct cs; [reflexivity|].
    cbn [map combine]. rewrite IH. reflexivity. }
  apply A.
Qed.

Lemma epoch_loop_spec {state batch} (acc : state -> batch -> R) size upd bs : forall s ll n,
  epoch_loop state batch acc size upd bs s ll n =
  (ll + lsumR (scores acc upd bs s), (n + rows size bs)%nat, fold_left upd bs s).
Proof.
  induction bs as [|b bs IH]; intros s ll n.
  - cbn. f_equal. f_equal; [lra|lia].
  - cbn [epoch_loop]. rewrite IH, scores_cons. cbn [lsumR rows fold_right fold_left]. f_equal. f_equal; [lra|]. unfold rows. lia.
Qed.

Lemma epoch_spec {state batch} (acc : state -> batch -> R) size upd bs s :
  epoch state batch acc size upd bs s =
  (if Nat.eqb (rows size bs) 0 then None else Some (lsumR (scores acc upd bs s) / INR (rows size bs)), fold_left upd bs s).
Proof.
  unfold epoch. rewrite epoch_loop_spec. rewrite Rplus_0_l. cbn [Nat.add]. destruct bs; reflexivity.
Qed.

Lemma iter_succ_r {A} (f : A -> A) n a : Nat.iter (S n) f a = Nat.iter n f (f a).
Proof. induction n as [|n IH]; [reflexivity|]. change (f (Nat.iter (S n) f a) = f (Nat.iter n f (f a))). now rewrite IH. Qed.

Lemma c43b {state batch} (acc : state -> batch -> R) size upd bs : forall k s0,
  em_batched state batch acc size upd k bs s0 =
  (map (fun e => fst (epoch state batch acc size upd bs (Nat.iter e (fold_left upd bs) s0))) (seq 0 k),
   Nat.iter k (fold_left upd bs) s0).
Proof.
  induction k as [|k IH]; intros s0; [reflexivity|]. cbn [em_batched].
  destruct (epoch state batch acc size upd bs s0) as [a s1] eqn:E.
  assert (s1 = fold_left upd bs s0) as -> by (rewrite epoch_spec in E; congruence).
  rewrite IH. cbn [seq map]. rewrite <- seq_shift, map_map. f_equal.
  - f_equal; [cbn; now rewrite E|]. apply map_ext. intros e. now rewrite iter_succ_r.
  - now rewrite iter_succ_r.
Qed.
