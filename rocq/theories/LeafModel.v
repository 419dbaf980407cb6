(** Model of the concrete leaf families and of the parameter projections:
    spflow/utils/projections.py and the log_prob of spflow/modules/leaves/*.py.

    The leaves delegate to torch.distributions; each [fam_*] below is the formula
    of that class' log_prob (float arithmetic idealised to reals), except for
    Hypergeometric, which the repository implements itself. *)
From Coq Require Import List Arith ZArith Bool Reals.
From Verif Require Import Base ScopeModel CircuitModel.
Import ListNotations.
Local Open Scope R_scope.

(** ** projections.py *)

Definition sigmoid (x : R) : R := 1 / (1 + exp (- x)).

(** projections.py 10-35 *)
Definition proj_convex_to_real (x : nat -> R) : nat -> R := fun i => ln (x i).
(** projections.py 38-60: softmax over the last dimension of extent [n] *)
Definition proj_real_to_convex (n : nat) (x : nat -> R) : nat -> R := softmax n x.
(** projections.py 63-101; with neither bound line 98 adds [None]: TypeError *)
Definition proj_real_to_bounded (x : R) (lb ub : option R) : result R :=
  match lb, ub with
  | Some l, Some u => Ok (sigmoid x * (u - l) + l)
  | Some l, None => Ok (exp x + l)
  | None, Some u => Ok (- exp x + u)
  | None, None => Err
  end.
(** projections.py 104-142; with neither bound line 139 subtracts [None]: TypeError *)
Definition proj_bounded_to_real (x : R) (lb ub : option R) : result R :=
  match lb, ub with
  | Some l, Some u => Ok (ln ((x - l) / (u - x)))
  | Some l, None => Ok (ln (x - l))
  | None, Some u => Ok (ln (u - x))
  | None, None => Err
  end.

(** ** log_prob of the families *)

(** The parameters a leaf stores at one (feature, channel, repetition) entry. *)
Inductive fam :=
| FBernoulli (logit : R)               (* bernoulli.py 101-103 *)
| FCategorical (K : nat) (logits : nat -> R) (* categorical.py 121-123 *)
| FBinomial (n : nat) (logit : R)      (* binomial.py 136-138 *)
| FGeometric (logit : R)               (* geometric.py 103-105 *)
| FPoisson (log_rate : R)              (* poisson.py 49-61, 78-80 *)
| FNegBin (total : nat) (logit : R)    (* negative_binomial.py 132-134; natural total_count only *)
| FHyper (K N n : nat)                 (* hypergeometric.py 356-358 *)
| FUniform (low high : R)              (* uniform.py 94-96 *)
| FExponential (log_rate : R)          (* exponential.py 50-53, 77-79 *)
| FLaplace (loc log_scale : R)         (* laplace.py 53-56, 79-80 *)
| FNormal (loc log_scale : R).         (* normal.py 55-58, 81-82 *)

Definition softplus (x : R) : R := ln (1 + exp x).

(** the natural number a cell value stands for, if it does *)
Definition asnat (a : R) : option nat :=
  let k := Z.to_nat (Int_part a) in if Req_EM_T a (INR k) then Some k else None.

(** torch.lgamma at the natural [k + 1] *)
Definition lfact (k : nat) : R := ln (INR (fact k)).

(** [torch.lgamma(z + 1)] at an integer: +inf at the poles, which occur with a
    minus sign only; so "minus lgamma(z+1)" is *)
Definition minus_lgamma1 (z : Z) : lval :=
  if Z.ltb z 0 then NInf else Fin (- lfact (Z.to_nat z)).

(** The support torch validates log_prob's argument against when
    validate_args=True (the default, leaf.py 30, 59, 129). *)
Definition supp (fm : fam) (a : R) : bool :=
  match fm with
  | FBernoulli _ => match asnat a with Some k => Nat.ltb k 2 | None => false end
  | FCategorical K _ => match asnat a with Some k => Nat.ltb k K | None => false end
  | FBinomial n _ => match asnat a with Some k => Nat.leb k n | None => false end
  | FGeometric _ | FPoisson _ | FNegBin _ _ => match asnat a with Some _ => true | None => false end
  | FHyper K N n => (* hypergeometric.py 57-103 *)
      match asnat a with Some k => Nat.leb (n + K - N) k && Nat.leb k (Nat.min n K) | None => false end
  | FUniform lo hi => rle lo a && rle a hi
  | FExponential _ => rle 0 a
  | FLaplace _ _ | FNormal _ _ => true
  end.

(** log_prob on the support. *)
Definition lp_formula (fm : fam) (a : R) : lval :=
  match fm with
  | FBernoulli l => Fin (a * l - softplus l)
  | FCategorical K lg => match asnat a with Some k => Fin (log_softmax K lg k) | None => NInf end
  | FBinomial n l =>
      match asnat a with
      | Some k => Fin (a * l - lfact k - lfact (n - k) - (INR n * softplus l - lfact n))
      | None => NInf
      end
  | FGeometric l => Fin (a * ln (1 - sigmoid l) + ln (sigmoid l))
  | FPoisson lr => match asnat a with Some k => Fin (a * ln (exp lr) - exp lr - lfact k) | None => NInf end
  | FNegBin r l =>
      match asnat a with
      | Some k =>
          let unnorm := INR r * ln (sigmoid (- l)) + a * ln (sigmoid l) in
          if Nat.eqb (r + k) 0 then Fin unnorm
          else if Nat.eqb r 0 then NInf
          else Fin (unnorm - (- lfact (r + k - 1) + lfact k + lfact (r - 1)))
      | None => NInf
      end
  | FHyper K N n => (* hypergeometric.py 120-149 *)
      match asnat a with
      | Some k =>
          ladd (Fin ((lfact K + 0 - ln (INR (fact (K + 1)))) + (lfact (N - K) + 0 - ln (INR (fact (N - K + 1))))
                     + lfact (N - n) + lfact n - ln (INR (fact (N + 1)))))
          (ladd (minus_lgamma1 (Z.of_nat k))
          (ladd (minus_lgamma1 (Z.of_nat K - Z.of_nat k))
          (ladd (Fin (ln (INR (fact (K + 1)))))
          (ladd (minus_lgamma1 (Z.of_nat n - Z.of_nat k))
          (ladd (minus_lgamma1 (Z.of_nat N - Z.of_nat K - Z.of_nat n + Z.of_nat k))
                (Fin (ln (INR (fact (N - K + 1))) - lfact N - 0 + ln (INR (fact (N + 1))))))))))
      | None => NInf
      end
  | FUniform lo hi => if (rle lo a && rlt a hi)%bool then Fin (- ln (hi - lo)) else NInf
  | FExponential lr => Fin (ln (exp lr) - exp lr * a)
  | FLaplace m ls => Fin (- ln (2 * exp ls) - Rabs (a - m) / exp ls)
  | FNormal m ls => Fin (- ((a - m) ^ 2) / (2 * exp ls ^ 2) - ln (exp ls) - ln (sqrt (2 * PI)))
  end.

(** log_prob as a total function: a value outside the support scores -inf here;
    with validate_args the leaf raises instead, see [fleaf_ll]. *)
Definition fam_lp (fm : fam) (a : R) : lval := if supp fm a then lp_formula fm a else NInf.

(** Admissible parameters: categorical.py (K >= 1 logits), uniform.py 52 and
    torch's Uniform (low < high), hypergeometric.py 309-333. *)
Definition fam_ok (fm : fam) : bool :=
  match fm with
  | FCategorical K _ => Nat.ltb 0 K
  | FHyper K N n => Nat.leb K N && Nat.leb n N
  | FUniform lo hi => rlt lo hi
  | _ => true
  end.

(** A leaf of one of these families: per entry a member of it.  The mode is not
    used in this file. *)
Record fleaf := mkFLeaf {
  fl_scope : scope; fl_ch : nat; fl_rep : nat;
  fl_fam : nat -> nat -> nat -> fam;
  fl_supported : nat -> R (* _supported_value reduced per feature, leaf.py 161-221 *) }.

(** [_supported_value] of the families (bernoulli.py 88, categorical.py 109,
    binomial.py 130, geometric.py 91, poisson.py 66, negative_binomial.py 120,
    hypergeometric.py 353, uniform.py 77, exponential.py 65, laplace.py 67,
    normal.py 69); tensors are reduced to channel 0, repetition 0 (leaf.py 211-213). *)
Definition supported_value (fm : fam) : R :=
  match fm with
  | FCategorical _ _ | FGeometric _ => 1
  | FHyper K N n => INR (n + K - N)
  | FUniform lo _ => lo
  | _ => 0
  end.

Definition mk_fleaf (sc : scope) (ch rep : nat) (fam_at : nat -> nat -> nat -> fam) : fleaf :=
  mkFLeaf sc ch rep fam_at (fun f => supported_value (fam_at f 0%nat 0%nat)).

Definition fl_leaf (l : fleaf) (mode : nat -> nat -> nat -> R) : leaf :=
  mkLeaf (fl_scope l) (fl_ch l) (fl_rep l) (fun f c r => fam_lp (fl_fam l f c r)) mode.

(** The argument log_prob receives at feature [f] (leaf.py 432-446): the cell, or
    the supported value when the cell is NaN. *)
Definition imputed (l : fleaf) (x : row) (f : nat) : R :=
  match x (nth f (query (fl_scope l)) 0%nat) with Some a => a | None => fl_supported l f end.

(** The support an entry's argument is validated against: torch compares with the
    entry's own support; Hypergeometric's check_support keeps only the mask of
    channel 0 and repetition 0 (hypergeometric.py 37-55, 92). *)
Definition vsupp (l : fleaf) (f c r : nat) (a : R) : bool :=
  match fl_fam l f c r with
  | FHyper _ _ _ => supp (fl_fam l f 0%nat 0%nat) a
  | fm => supp fm a
  end.

(** Validation (validate_args=True) of the whole broadcast argument: all
    features, channels and repetitions; one violation raises. *)
Definition validates (l : fleaf) (x : row) : bool :=
  allb (length (query (fl_scope l))) (fun f => allb (fl_ch l) (fun c => allb (fl_rep l) (fun r =>
    vsupp l f c r (imputed l x f)))).

(** leaf.py 425-477: log_likelihood of one row with validation; NaN cells are
    imputed, scored, then overwritten by 0. *)
Definition fleaf_ll (l : fleaf) (x : row) : result (nat -> nat -> nat -> lval) :=
  if validates l x
  then Ok (fun f c r => match x (nth f (query (fl_scope l)) 0%nat) with
                        | None => Fin 0
                        | Some a => lp_formula (fl_fam l f c r) a
                        end)
  else Err.
