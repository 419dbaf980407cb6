(** Concrete circuits used as witnesses. *)
From Coq Require Import List Arith Bool Lia Lra.
From Verif Require Import Base ScopeModel ScopeProofs CircuitModel CircuitSpec CircuitBasics CircuitEval Integral CircuitMarg MargModel MargProofs.
Import ListNotations.
Local Open Scope R_scope.

(** log-probability of a Bernoulli(p) variable *)
Definition bern_lp (p a : R) : lval :=
  if Req_EM_T a 1 then lfrom p else if Req_EM_T a 0 then lfrom (1 - p) else NInf.

Definition bern (q : list nat) (ch rep : nat) (p : nat -> nat -> nat -> R) : leaf :=
  mkLeaf (mkScope q []) ch rep (fun f c r => bern_lp (p f c r))
    (fun f c r => if Rle_dec (p f c r) (1/2) then 0 else 1).

Definition bits : domain := DFin [0; 1].

Lemma pr_bern_1 p : 0 <= p -> pr (bern_lp p 1) = p.
Proof. intros. unfold bern_lp. destruct (Req_EM_T 1 1); [|lra]. now apply pr_lfrom. Qed.

Lemma pr_bern_0 p : p <= 1 -> pr (bern_lp p 0) = 1 - p.
Proof. intros. unfold bern_lp. destruct (Req_EM_T 0 1); [lra|]. destruct (Req_EM_T 0 0); [|lra]. apply pr_lfrom; lra. Qed.

Lemma bern_norm q ch rep p : (forall f c r, 0 <= p f c r <= 1) -> leaf_norm (fun _ => bits) (bern q ch rep p).
Proof.
  intros H f c r _ _ _. cbn. rewrite pr_bern_0, pr_bern_1 by apply H. lra.
Qed.

Lemma bern_ok q ch rep p : q <> [] -> NoDup q -> (0 < ch)%nat -> (0 < rep)%nat -> leaf_okb (bern q ch rep p) = true.
Proof. intros. apply leaf_okb_spec. cbn. repeat split; auto; constructor. Qed.

(** 2-channel Bernoulli leaf over variables 0 and 2, product over them, weighted sum *)
Definition exA : module := MLeaf (bern [0; 2]%nat 2 1 (fun f c _ => if Nat.eqb f c then 1/4 else 1/2)).
Definition ex_w : wtensor := mkW 1 2 1 1 (fun _ i _ _ => if Nat.eqb i 0 then 1/4 else 3/4).
Definition exS : module := MSum (MProduct exA) 1 1 (fun f i o r => ln (wv ex_w f i o r)).

Lemma exA_built : built exA.
Proof.
  apply b_leaf. apply bern_ok; try lia; [discriminate|]. repeat constructor; cbn; intuition lia.
Qed.

Lemma exP_built : built (MProduct exA).
Proof. apply (b_product [exA]); [|reflexivity]. constructor; [apply exA_built|constructor]. Qed.

Lemma exS_built : built exS.
Proof.
  apply (b_sum_w (MProduct exA) 1 1 (W4 ex_w)); [apply exP_built|].
  apply (mk_sum_w_intro (MProduct exA) ex_w); cbn; try lia.
  - intros f i o r _ Hi _ _. destruct (Nat.eqb i 0); lra.
  - intros. lra.
Qed.

Lemma exS_aligned : aligned exS. Proof. exact I. Qed.

Lemma exS_norm : leaves_norm (fun _ => bits) exS.
Proof.
  constructor; [|constructor]. apply bern_norm. intros f c r. destruct (Nat.eqb f c); lra.
Qed.

Lemma exS_shape : ll_shape exS = Ok (mkShape 1 1 1). Proof. reflexivity. Qed.

(** ** Inputs of a Sum listing the same variables in different orders *)
Definition sharp (b : bool) : nat -> nat -> nat -> R := fun _ _ _ => if b then 1 else 0.
Definition unA : module := MLeaf (bern [0; 1]%nat 1 1 (sharp true)).
Definition unB : module := MLeaf (bern [1; 0]%nat 1 1 (sharp false)).
Definition un_w : wtensor := mkW 2 2 1 1 (fun _ _ _ _ => 1/2).
Definition unC : module := MCat true (mkScope [0; 1]%nat []) [unA; unB].
Definition unS : module := MSum unC 1 1 (fun f i o r => ln (wv un_w f i o r)).
Definition unP : module := MProduct unS.

Lemma unP_built : built unP.
Proof.
  apply (b_product [unS]); [|reflexivity]. constructor; [|constructor].
  apply (b_sum_w unC 1 1 (W4 un_w)).
  - apply (b_cat true [unA; unB]); [|reflexivity].
    constructor; [|constructor; [|constructor]]; apply b_leaf, bern_ok; try lia; try discriminate;
      repeat constructor; cbn; intuition lia.
  - apply (mk_sum_w_intro unC un_w); cbn; try lia; intros; lra.
Qed.

Lemma unP_norm : leaves_norm (fun _ => bits) unP.
Proof.
  constructor; [|constructor; [|constructor]]; apply bern_norm; intros; unfold sharp; lra.
Qed.

Lemma unP_prob (x : row) a b : x 0%nat = Some a -> x 1%nat = Some b ->
  prob unP x 0 0 0 = (1/2 * pr (bern_lp 1 a) + 1/2 * pr (bern_lp 0 b)) * (1/2 * pr (bern_lp 1 b) + 1/2 * pr (bern_lp 0 a)).
Proof.
  intros Ha Hb. unfold unP. rewrite prob_pev, pev_product. cbn [bprod features out_shape unS unC hd_shape map hd unA bern l_scope query length].
  assert (forall f i, (f < 2)%nat -> (i < 2)%nat -> softmax 2 (fun i => ln (wv un_w f i 0 0)) i = 1/2) as SM.
  { intros f i Hf Hi. apply (softmax_ln 2 (fun _ => 1/2)); [assumption|intros; lra|cbn; lra]. }
  unfold unS. rewrite !pev_sum by (cbn; lia).
  change (channels (out_shape unC)) with 2%nat. cbn [bsum bidx ll_reps unC hd map unA bern l_rep Nat.eqb].
  rewrite !SM by lia. unfold pev. cbn -[pr bern_lp Rmult Rplus Rdiv].
  change (Nat.ltb 0 1) with true. change (Nat.ltb 1 1) with false. cbv iota.
  unfold leaf_score. cbn -[pr bern_lp Rmult Rplus Rdiv]. rewrite Ha, Hb. unfold sharp. cbv iota. lra.
Qed.

Definition row2 (a b : R) : row := fun v => match v with 0%nat => Some a | 1%nat => Some b | _ => None end.

Lemma unP_total :
  prob unP (row2 0 0) 0 0 0 + prob unP (row2 0 1) 0 0 0 + prob unP (row2 1 0) 0 0 0 + prob unP (row2 1 1) 0 0 0 = 1/2.
Proof.
  rewrite (unP_prob (row2 0 0) 0 0), (unP_prob (row2 0 1) 0 1), (unP_prob (row2 1 0) 1 0), (unP_prob (row2 1 1) 1 1) by reflexivity.
  rewrite !pr_bern_0, !pr_bern_1 by lra. lra.
Qed.

(** ** A Sum built with the default num_repetitions over a 5-repetition input *)
Definition rep5 : module := MLeaf (bern [0]%nat 2 5 (fun _ _ _ => 1/2)).
Definition sum_rep5 : module := MSum rep5 1 1 (fun f i o r => ln (wv ex_w f i o r)).

Lemma sum_rep5_built : built sum_rep5.
Proof.
  apply (b_sum_w rep5 1 1 (W4 ex_w)).
  - apply b_leaf, bern_ok; try lia; try discriminate. repeat constructor; cbn; intuition lia.
  - apply (mk_sum_w_intro rep5 ex_w); cbn; try lia.
    + intros f i o r _ Hi _ _. destruct (Nat.eqb i 0); lra.
    + intros; lra.
Qed.

(** ** A Sum with more repetitions than its input *)
Definition rep1 : module := MLeaf (bern [0; 1]%nat 1 1 (fun _ _ _ => 1/2)).
Definition w_rep2 : wtensor := mkW 2 1 1 2 (fun _ _ _ _ => 1).
Definition sum_rep2 : module := MSum rep1 1 2 (fun f i o r => ln (wv w_rep2 f i o r)).

Lemma sum_rep2_built : built sum_rep2.
Proof.
  apply (b_sum_w rep1 1 2 (W4 w_rep2)).
  - apply b_leaf, bern_ok; try lia; try discriminate. repeat constructor; cbn; intuition lia.
  - unfold mk_sum_w. cbn [norm_warg wR w_rep2 wO Nat.eqb negb andb]. change (Nat.ltb 1 1) with false. cbv iota.
    apply (set_weights_intro rep1 w_rep2); cbn; intros; try lia; lra.
Qed.

Lemma sum_rep2_marg : marg [0]%nat true sum_rep2 = Err.
Proof. reflexivity. Qed.
