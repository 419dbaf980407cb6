(** Specification vocabulary for the APC latent statistics (C293-C297). *)
From Coq Require Import List Arith Bool Reals.
From Verif Require Import Base CircuitModel Integral LeafModel LeafSpec ApcModel.
Import ListNotations.
Local Open Scope R_scope.

(** the density (mass) of a family at a value *)
Definition dens (fm : fam) (a : R) : R := pr (fam_lp fm a).

(** mean, variance and Kullback-Leibler divergence of distributions *)
Definition mean_of (fm : fam) (u : R) : Prop := sums (range_of fm) (fun a => a * dens fm a) u.
Definition var_of (fm : fam) (v : R) : Prop :=
  exists u, mean_of fm u /\ sums (range_of fm) (fun a => (a - u) ^ 2 * dens fm a) v.
Definition kl_of (fm fm0 : fam) (k : R) : Prop :=
  sums (range_of fm) (fun a => dens fm a * ln (dens fm a / dens fm0 a)) k.

(** a most probable value of the variable *)
Definition in_range (fm : fam) (a : R) : Prop :=
  match range_of fm with DFin l => In a l | DNat => exists k, a = INR k | DReal => True end.
Definition is_mode (fm : fam) (a : R) : Prop := in_range fm a /\ forall b, in_range fm b -> dens fm b <= dens fm a.

(** The leaf distribution a routed record stands for (logit parameters, and the
    positive [scale] of a Normal leaf), and the fixed prior of its family:
    standard normal, fair coin, fair binomial, uniform. *)
Definition rec_fam (r : zrec) : option fam :=
  match r with
  | ZNormalLog m ls => Some (FNormal m ls)
  | ZNormalScale m s => Some (FNormal m (ln s))
  | ZBernoulli l => Some (FBernoulli l)
  | ZBinomial n l => Some (FBinomial n l)
  | ZCategorical K lg => Some (FCategorical K lg)
  | ZBernoulliP _ | ZBinomialP _ _ | ZCategoricalP _ _ => None
  end.
Definition prior (fm : fam) : fam :=
  match fm with
  | FNormal _ _ => FNormal 0 0
  | FBernoulli _ => FBernoulli 0
  | FBinomial n _ => FBinomial n 0
  | FCategorical K _ => FCategorical K (fun _ => 0)
  | f => f
  end.

(** the parameters the clamps at [eps] leave alone *)
Definition unclamped (eps : R) (r : zrec) : Prop :=
  match r with
  | ZNormalLog _ _ => True
  | ZNormalScale _ s => 0 < s /\ eps <= s ^ 2
  | ZBernoulli l | ZBinomial _ l => eps <= sigmoid l <= 1 - eps
  | ZCategorical K lg => (0 < K)%nat /\ forall k, (k < K)%nat -> eps <= softmax K lg k
  | ZBernoulliP _ | ZBinomialP _ _ | ZCategoricalP _ _ => False
  end.

(** Independent latent dimensions: iterated sums/integrals over the values of a
    whole latent row, and the product density. *)
Fixpoint sums_rows (ds : list domain) (g : list R -> R) (u : R) : Prop :=
  match ds with
  | [] => g [] = u
  | d :: r => exists h, (forall a, sums_rows r (fun l => g (a :: l)) (h a)) /\ sums d h u
  end.
Fixpoint pdens (fs : list fam) (z : list R) : R :=
  match fs, z with
  | [], [] => 1
  | f :: fs', a :: z' => dens f a * pdens fs' z'
  | _, _ => 0
  end.
Definition kl_rows (fs : list fam) (k : R) : Prop :=
  sums_rows (map range_of fs) (fun z => pdens fs z * ln (pdens fs z / pdens (map prior fs) z)) k.

(** the clamps at [eps] do not hide the mode *)
Definition resolvable (eps : R) (r : zrec) : Prop :=
  0 < eps < 1 / 2 /\
  match r with
  | ZBinomial n _ => (INR n + 1) * eps < 1
  | ZCategorical K _ => INR K * eps <= 1
  | _ => True
  end.
