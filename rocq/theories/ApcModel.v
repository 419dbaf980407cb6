(** Model of the latent statistics of the APC encoders
    (spflow/zoo/apc/encoders/latent_stats.py 80-212), of the APC objective
    (spflow/zoo/apc/model.py 112-229) and of the training helpers
    (spflow/zoo/apc/train.py 28-194).

    Tensors are functions of the batch row and of the latent dimension; the shape
    checks are left out.  Float arithmetic is idealised to reals; [eps] is
    [torch.finfo(dtype).eps]. *)
From Coq Require Import List Arith ZArith Bool Reals.
From Verif Require Import Base ScopeModel CircuitModel LeafModel CtxModel.
Import ListNotations.
Local Open Scope R_scope.

(** ** latent statistics *)

(** torch.clamp(x, min=lo, max=hi): the minimum is applied first *)
Definition clamp (lo hi x : R) : R := Rmin (Rmax x lo) hi.
Definition clamp_min (lo x : R) : R := Rmax x lo.

(** One entry of a routed record (sampling_context.py 23-45; leaf.py 940-1009).
    The constructors are the combinations of leaf type and parameter names
    latent_stats.py distinguishes; [Binomial] carries [total_count]. *)
Inductive zrec :=
| ZNormalLog (loc log_scale : R)          (* 91-96 *)
| ZNormalScale (loc scale : R)            (* 97-103; what normal.py 81-82 records *)
| ZBernoulli (logit : R)                  (* 36-39; bernoulli.py 101-103 *)
| ZBernoulliP (p : R)                     (* 40-43 *)
| ZBinomial (n : nat) (logit : R)         (* binomial.py 136-138 *)
| ZBinomialP (n : nat) (p : R)
| ZCategorical (K : nat) (logits : nat -> R)   (* 167-174; categorical.py 121-123 *)
| ZCategoricalP (K : nat) (probs : nat -> R).  (* 175-184 *)

(** LatentStats (base.py 12-28) of one entry; [zs_kld] is its summand of
    [kld_per_sample]. *)
Record zstats := mkZStats { zs_mu : R; zs_logvar : R; zs_kld : R; zs_decode : R }.

(** torch.floor of a real *)
Definition rfloor (x : R) : R := IZR (Int_part x).

(** 105-106 *)
Definition normal_stats (mu s2 logvar : R) : zstats :=
  mkZStats mu logvar (1 / 2 * (mu ^ 2 + s2 - 1 - logvar)) mu.

(** 115-118 and 141-144: [p] and [one_minus_p] *)
Definition pclamp (eps p : R) : R := clamp eps (1 - eps) p.
Definition qclamp (eps p : R) : R := clamp eps (1 - eps) (1 - pclamp eps p).
Definition bern_kl (eps p : R) : R :=
  pclamp eps p * (ln (pclamp eps p) - ln (1 / 2)) + qclamp eps p * (ln (qclamp eps p) - ln (1 / 2)).

(** 112-128 *)
Definition bernoulli_stats (eps p : R) : zstats :=
  mkZStats (pclamp eps p) (ln (clamp_min eps (pclamp eps p * qclamp eps p))) (bern_kl eps p)
           (if Rle_dec (1 / 2) (pclamp eps p) then 1 else 0).

(** 130-164 *)
Definition binomial_stats (eps : R) (n : nat) (p : R) : zstats :=
  mkZStats (INR n * pclamp eps p) (ln (clamp_min eps (INR n * pclamp eps p * qclamp eps p)))
           (INR n * bern_kl eps p)
           (Rmin (Rmax (rfloor ((INR n + 1) * pclamp eps p)) 0) (INR n)).

(** 191-192 and 182-183: clamp, then renormalise *)
Definition cat_clamp (eps : R) (K : nat) (clampf : R -> R) (p : nat -> R) : nat -> R :=
  fun k => clampf (p k) / clamp_min eps (bsum K (fun j => clampf (p j))).

(** 186-208 *)
Definition categorical_stats (eps : R) (K : nat) (p0 : nat -> R) : zstats :=
  let p := cat_clamp eps K (clamp eps 1) p0 in
  let mu := bsum K (fun k => p k * INR k) in
  mkZStats mu (ln (clamp_min eps (bsum K (fun k => p k * INR k ^ 2) - mu ^ 2)))
           (bsum K (fun k => p k * (ln (p k) + ln (INR K))))
           (INR (rargmax K p)).

(** 80-212 on one entry; a categorical record without classes raises (187-188).
    A Python-level error of another family (210-212) has no constructor. *)
Definition entry_stats (eps : R) (r : zrec) : result zstats :=
  match r with
  | ZNormalLog m ls => Ok (normal_stats m (exp (2 * ls)) (2 * ls))
  | ZNormalScale m s => let s2 := clamp_min eps (s ^ 2) in Ok (normal_stats m s2 (ln s2))
  | ZBernoulli l => Ok (bernoulli_stats eps (sigmoid l))
  | ZBernoulliP p => Ok (bernoulli_stats eps p)
  | ZBinomial n l => Ok (binomial_stats eps n (sigmoid l))
  | ZBinomialP n p => Ok (binomial_stats eps n p)
  | ZCategorical K lg => if Nat.eqb K 0 then Err else Ok (categorical_stats eps K (softmax K lg))
  | ZCategoricalP K p => if Nat.eqb K 0 then Err else Ok (categorical_stats eps K (cat_clamp eps K (clamp_min eps) p))
  end.

(** Statistics of one batch row: its entries' statistics, and the KL summed over
    the latent dimensions ([.sum(dim=1)], 105, 126, 162, 206). *)
Fixpoint row_stats (eps : R) (rs : list zrec) : result (list zstats * R) :=
  match rs with
  | [] => Ok ([], 0)
  | r :: rest =>
      match entry_stats eps r, row_stats eps rest with
      | Ok s, Ok (ss, k) => Ok (s :: ss, zs_kld s + k)
      | _, _ => Err
      end
  end.
