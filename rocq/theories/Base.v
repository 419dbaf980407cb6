(** Shared vocabulary of the model: exceptions as values, finite sums and
    products over [R], log-domain values.  Nothing here models a particular
    function of /repo except where a comment says so. *)
From Coq Require Export Reals List Arith Lia Lra Bool.
From Coq Require Export FunctionalExtensionality.
Export ListNotations.
Local Open Scope R_scope.
Global Arguments Nat.ltb : simpl never.
Global Arguments Nat.div : simpl never.
Global Arguments Nat.modulo : simpl never.

(** Python exceptions as values. *)
Inductive result (A : Type) : Type := Ok (a : A) | Err.
Arguments Ok {A} a.
Arguments Err {A}.

Definition bind {A B} (x : result A) (k : A -> result B) : result B :=
  match x with Ok a => k a | Err => Err end.

(** [sum_{i<n} f i] *)
Fixpoint bsum (n : nat) (f : nat -> R) : R :=
  match n with O => 0 | S k => bsum k f + f k end.

(** [prod_{i<n} f i] *)
Fixpoint bprod (n : nat) (f : nat -> R) : R :=
  match n with O => 1 | S k => bprod k f * f k end.

(** sum of a list *)
Fixpoint lsumR (l : list R) : R :=
  match l with [] => 0 | x :: r => x + lsumR r end.

(** Values of log-likelihood tensors: a real number or minus infinity.
    (torch float tensors; NaN and +inf do not arise from sums of these, where
    they could arise the modelling definition says so and returns [Err].) *)
Inductive lval := NInf | Fin (r : R).

(** [torch.exp] *)
Definition pr (v : lval) : R := match v with NInf => 0 | Fin r => exp r end.

(** [torch.log] on a non-negative number. *)
Definition lfrom (p : R) : lval := if Rlt_dec 0 p then Fin (ln p) else NInf.

(** addition of log values *)
Definition ladd (a b : lval) : lval :=
  match a, b with Fin x, Fin y => Fin (x + y) | _, _ => NInf end.

(** [torch.sum] of [n] log values *)
Fixpoint ladds (n : nat) (f : nat -> lval) : lval :=
  match n with O => Fin 0 | S k => ladd (ladds k f) (f k) end.

(** [torch.logsumexp] of [n] log values: log of the sum of the exponentials,
    minus infinity when all of them are minus infinity (torch's convention). *)
Definition lse (n : nat) (f : nat -> lval) : lval := lfrom (bsum n (fun i => pr (f i))).

(** ** Lemmas *)

Lemma bsum_ext n f g : (forall i, (i < n)%nat -> f i = g i) -> bsum n f = bsum n g.
Proof. induction n as [|n IH]; cbn; intros H; [reflexivity|]. rewrite IH, H; auto. Qed.

Lemma bprod_ext n f g : (forall i, (i < n)%nat -> f i = g i) -> bprod n f = bprod n g.
Proof. induction n as [|n IH]; cbn; intros H; [reflexivity|]. rewrite IH, H; auto. Qed.

Lemma bsum_plus n f g : bsum n (fun i => f i + g i) = bsum n f + bsum n g.
Proof. induction n as [|n IH]; cbn; [lra|]. rewrite IH; lra. Qed.

Lemma bsum_scal n k f : bsum n (fun i => k * f i) = k * bsum n f.
Proof. induction n as [|n IH]; cbn; [lra|]. rewrite IH; lra. Qed.

Lemma bsum_scal_r n k f : bsum n (fun i => f i * k) = bsum n f * k.
Proof. induction n as [|n IH]; cbn; [lra|]. rewrite IH; lra. Qed.

Lemma bsum_div n k f : bsum n (fun i => f i / k) = bsum n f / k.
Proof. unfold Rdiv. apply bsum_scal_r. Qed.

Lemma bsum_zero n f : (forall i, (i < n)%nat -> f i = 0) -> bsum n f = 0.
Proof. induction n as [|n IH]; cbn; intros H; [reflexivity|]. rewrite IH, H; auto; lra. Qed.

Lemma bsum_nonneg n f : (forall i, (i < n)%nat -> 0 <= f i) -> 0 <= bsum n f.
Proof.
  induction n as [|n IH]; cbn; intros H; [lra|].
  assert (0 <= bsum n f) by auto. assert (0 <= f n) by auto. lra.
Qed.

Lemma bsum_pos n f : (0 < n)%nat -> (forall i, (i < n)%nat -> 0 < f i) -> 0 < bsum n f.
Proof.
  destruct n as [|n]; [lia|]. intros _ H. cbn.
  assert (0 <= bsum n f) by (apply bsum_nonneg; intros; left; auto).
  assert (0 < f n) by auto. lra.
Qed.

Lemma bsum_le n f g : (forall i, (i < n)%nat -> f i <= g i) -> bsum n f <= bsum n g.
Proof.
  induction n as [|n IH]; cbn; intros H; [lra|].
  assert (bsum n f <= bsum n g) by auto. assert (f n <= g n) by auto. lra.
Qed.

Lemma bsum_term_le n f i : (i < n)%nat -> (forall j, (j < n)%nat -> 0 <= f j) -> f i <= bsum n f.
Proof.
  induction n as [|n IH]; [lia|]; cbn; intros Hi H.
  assert (0 <= bsum n f) by (apply bsum_nonneg; auto).
  assert (0 <= f n) by auto.
  destruct (Nat.eq_dec i n) as [->|Hn]; [lra|].
  assert (f i <= bsum n f) by (apply IH; [lia|auto]). lra.
Qed.

Lemma bsum_nonneg_zero n f i :
  (forall j, (j < n)%nat -> 0 <= f j) -> bsum n f = 0 -> (i < n)%nat -> f i = 0.
Proof.
  intros H H0 Hi. assert (f i <= bsum n f) by (apply bsum_term_le; auto).
  assert (0 <= f i) by auto. lra.
Qed.

Lemma bsum_swap n m (f : nat -> nat -> R) :
  bsum n (fun i => bsum m (fun j => f i j)) = bsum m (fun j => bsum n (fun i => f i j)).
Proof.
  induction n as [|n IH]; cbn.
  - symmetry; apply bsum_zero; auto.
  - rewrite IH, <- bsum_plus. reflexivity.
Qed.

Lemma bsum_const n c : bsum n (fun _ => c) = INR n * c.
Proof. induction n as [|n IH]; [cbn; lra|]. cbn [bsum]. rewrite IH, S_INR. lra. Qed.

Lemma bsum_app n m f : bsum (n + m) f = bsum n f + bsum m (fun i => f (n + i)%nat).
Proof.
  induction m as [|m IH]; [rewrite Nat.add_0_r; cbn; lra|].
  rewrite Nat.add_succ_r. cbn. rewrite IH. lra.
Qed.

Lemma bsum_S_first n f : bsum (S n) f = f O + bsum n (fun i => f (S i)).
Proof. replace (S n) with (1 + n)%nat by lia. rewrite bsum_app. cbn. lra. Qed.

Lemma bsum_single n f k :
  (k < n)%nat -> (forall i, (i < n)%nat -> i <> k -> f i = 0) -> bsum n f = f k.
Proof.
  induction n as [|n IH]; [lia|]; intros Hk H; cbn.
  destruct (Nat.eq_dec k n) as [->|Hn].
  - rewrite bsum_zero; [lra|]. intros i Hi; apply H; lia.
  - rewrite IH; [|lia|intros; apply H; lia]. rewrite (H n); [lra|lia|lia].
Qed.

Lemma bprod_app n m f : bprod (n + m) f = bprod n f * bprod m (fun i => f (n + i)%nat).
Proof.
  induction m as [|m IH]; [rewrite Nat.add_0_r; cbn; lra|].
  rewrite Nat.add_succ_r. cbn. rewrite IH. lra.
Qed.

Lemma bprod_S_first n f : bprod (S n) f = f O * bprod n (fun i => f (S i)).
Proof. replace (S n) with (1 + n)%nat by lia. rewrite bprod_app. cbn. lra. Qed.

Lemma bprod_mult n f g : bprod n (fun i => f i * g i) = bprod n f * bprod n g.
Proof. induction n as [|n IH]; cbn; [lra|]. rewrite IH; lra. Qed.

Lemma bprod_one n f : (forall i, (i < n)%nat -> f i = 1) -> bprod n f = 1.
Proof. induction n as [|n IH]; cbn; intros H; [reflexivity|]. rewrite IH, H; auto; lra. Qed.

Lemma bprod_nonneg n f : (forall i, (i < n)%nat -> 0 <= f i) -> 0 <= bprod n f.
Proof.
  induction n as [|n IH]; cbn; intros H; [lra|].
  apply Rmult_le_pos; auto.
Qed.

Lemma bprod_pos n f : (forall i, (i < n)%nat -> 0 < f i) -> 0 < bprod n f.
Proof.
  induction n as [|n IH]; cbn; intros H; [lra|].
  apply Rmult_lt_0_compat; auto.
Qed.

Lemma bprod_zero n f i : (i < n)%nat -> f i = 0 -> bprod n f = 0.
Proof.
  induction n as [|n IH]; [lia|]; cbn; intros Hi H.
  destruct (Nat.eq_dec i n) as [->|Hn]; [rewrite H; lra|].
  rewrite IH; [lra|lia|assumption].
Qed.

(** Isolate one factor. *)
Lemma bprod_isolate n f k :
  (k < n)%nat -> bprod n f = f k * bprod n (fun i => if Nat.eqb i k then 1 else f i).
Proof.
  induction n as [|n IH]; [lia|]; intros Hk; cbn.
  destruct (Nat.eq_dec k n) as [->|Hn].
  - rewrite Nat.eqb_refl.
    rewrite (bprod_ext n (fun i => if Nat.eqb i n then 1 else f i) f); [lra|].
    intros i Hi. destruct (Nat.eqb_spec i n); [lia|reflexivity].
  - rewrite IH by lia. destruct (Nat.eqb_spec n k); [lia|]. lra.
Qed.

Lemma pr_nonneg v : 0 <= pr v.
Proof. destruct v; cbn; [lra|]. left; apply exp_pos. Qed.

Lemma pr_fin_pos r : 0 < pr (Fin r).
Proof. apply exp_pos. Qed.

Lemma pr_lfrom p : 0 <= p -> pr (lfrom p) = p.
Proof.
  intros H. unfold lfrom. destruct (Rlt_dec 0 p) as [Hp|Hp]; cbn.
  - apply exp_ln; assumption.
  - lra.
Qed.

Lemma lfrom_pr v : lfrom (pr v) = v.
Proof.
  unfold lfrom. destruct v as [|r]; cbn.
  - destruct (Rlt_dec 0 0); [lra|reflexivity].
  - destruct (Rlt_dec 0 (exp r)) as [H|H].
    + rewrite ln_exp. reflexivity.
    + exfalso; apply H, exp_pos.
Qed.

Lemma pr_inj a b : pr a = pr b -> a = b.
Proof. intros H. rewrite <- (lfrom_pr a), <- (lfrom_pr b), H. reflexivity. Qed.

Lemma pr_ladd a b : pr (ladd a b) = pr a * pr b.
Proof. destruct a, b; cbn; try lra. apply exp_plus. Qed.

Lemma pr_ladds n f : pr (ladds n f) = bprod n (fun i => pr (f i)).
Proof.
  induction n as [|n IH]; cbn [ladds bprod]; [cbn; apply exp_0|].
  rewrite pr_ladd, IH. reflexivity.
Qed.

Lemma pr_lse n f : pr (lse n f) = bsum n (fun i => pr (f i)).
Proof. apply pr_lfrom. apply bsum_nonneg; intros; apply pr_nonneg. Qed.

Lemma pr_zero_NInf v : pr v = 0 -> v = NInf.
Proof. intros H. apply pr_inj. rewrite H. reflexivity. Qed.

Lemma pr_Fin0 : pr (Fin 0) = 1.
Proof. apply exp_0. Qed.

Lemma ladds_ext n f g : (forall i, (i < n)%nat -> f i = g i) -> ladds n f = ladds n g.
Proof. induction n as [|n IH]; cbn; intros H; [reflexivity|]. rewrite IH, H; auto. Qed.

Lemma lse_ext n f g : (forall i, (i < n)%nat -> f i = g i) -> lse n f = lse n g.
Proof. intros H. unfold lse. f_equal. apply bsum_ext. intros i Hi. now rewrite H. Qed.

(** List sums *)
Lemma lsumR_app a b : lsumR (a ++ b) = lsumR a + lsumR b.
Proof. induction a as [|x a IH]; cbn; [lra|]. rewrite IH; lra. Qed.

Lemma lsumR_map_plus {A} (f g : A -> R) l :
  lsumR (map (fun x => f x + g x) l) = lsumR (map f l) + lsumR (map g l).
Proof. induction l as [|x l IH]; cbn; [lra|]. rewrite IH; lra. Qed.

Lemma lsumR_map_scal {A} (k : R) (f : A -> R) l :
  lsumR (map (fun x => k * f x) l) = k * lsumR (map f l).
Proof. induction l as [|x l IH]; cbn; [lra|]. rewrite IH; lra. Qed.

Lemma lsumR_map_scal_r {A} (k : R) (f : A -> R) l :
  lsumR (map (fun x => f x * k) l) = lsumR (map f l) * k.
Proof. induction l as [|x l IH]; cbn; [lra|]. rewrite IH; lra. Qed.

Lemma lsumR_map_ext {A} (f g : A -> R) l :
  (forall x, In x l -> f x = g x) -> lsumR (map f l) = lsumR (map g l).
Proof.
  induction l as [|x l IH]; cbn; intros H; [reflexivity|].
  rewrite H, IH; auto.
Qed.

Lemma lsumR_map_zero {A} (f : A -> R) l : (forall x, In x l -> f x = 0) -> lsumR (map f l) = 0.
Proof. induction l as [|x l IH]; cbn; intros H; [reflexivity|]. rewrite H, IH; auto; lra. Qed.

Lemma lsumR_map_nonneg {A} (f : A -> R) l :
  (forall x, In x l -> 0 <= f x) -> 0 <= lsumR (map f l).
Proof.
  induction l as [|x l IH]; cbn; intros H; [lra|].
  assert (0 <= f x) by auto. assert (0 <= lsumR (map f l)) by auto. lra.
Qed.

Lemma lsumR_map_le {A} (f g : A -> R) l :
  (forall x, In x l -> f x <= g x) -> lsumR (map f l) <= lsumR (map g l).
Proof.
  induction l as [|x l IH]; cbn; intros H; [lra|].
  assert (f x <= g x) by auto. assert (lsumR (map f l) <= lsumR (map g l)) by auto. lra.
Qed.

Lemma lsumR_term_le {A} (f : A -> R) l x :
  In x l -> (forall y, In y l -> 0 <= f y) -> f x <= lsumR (map f l).
Proof.
  induction l as [|y l IH]; cbn; intros Hin H; [tauto|].
  assert (0 <= f y) by auto.
  assert (0 <= lsumR (map f l)) by (apply lsumR_map_nonneg; auto).
  destruct Hin as [->|Hin]; [lra|].
  assert (f x <= lsumR (map f l)) by auto. lra.
Qed.

Lemma lsumR_bsum {A} (f : A -> R) l d :
  lsumR (map f l) = bsum (length l) (fun i => f (nth i l d)).
Proof.
  induction l as [|x l IH]; [reflexivity|].
  cbn [map lsumR length]. rewrite bsum_S_first, IH. reflexivity.
Qed.

Lemma lsumR_seq (f : nat -> R) n : lsumR (map f (seq 0 n)) = bsum n f.
Proof.
  rewrite (lsumR_bsum f _ 0%nat), seq_length. apply bsum_ext.
  intros i Hi. rewrite seq_nth by assumption. reflexivity.
Qed.

Lemma lsumR_swap {A B} (f : A -> B -> R) la lb :
  lsumR (map (fun a => lsumR (map (f a) lb)) la) = lsumR (map (fun b => lsumR (map (fun a => f a b) la)) lb).
Proof.
  induction la as [|a la IH]; cbn.
  - symmetry; apply lsumR_map_zero; auto.
  - rewrite IH, <- lsumR_map_plus. reflexivity.
Qed.

Lemma lsumR_bsum_swap {A} (f : A -> nat -> R) l n :
  lsumR (map (fun a => bsum n (f a)) l) = bsum n (fun i => lsumR (map (fun a => f a i) l)).
Proof.
  induction l as [|a l IH]; cbn.
  - symmetry; apply bsum_zero; auto.
  - rewrite IH, <- bsum_plus. reflexivity.
Qed.

Lemma lsumR_flat_map {A B} (f : B -> R) (g : A -> list B) l :
  lsumR (map f (flat_map g l)) = lsumR (map (fun a => lsumR (map f (g a))) l).
Proof. induction l as [|a l IH]; cbn; [reflexivity|]. rewrite map_app, lsumR_app, IH. reflexivity. Qed.
