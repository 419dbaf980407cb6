(** Specification vocabulary for the APC objective and trainer (C297-C302). *)
From Coq Require Import List Arith Bool Reals.
From Verif Require Import Base ApcTrainModel.
Import ListNotations.
Local Open Scope R_scope.

(** The three loss terms of one sample: reconstruction error of the decoded
    latent, KL divergence, negative log-likelihood; a term with weight zero is 0. *)
Record terms := mkTerms { t_rec : R; t_kld : R; t_nll : R }.

Definition fits_target (bce : bool) (x y : list R) : Prop :=
  length x = length y /\ (bce = true -> (forall u, In u x -> 0 <= u <= 1) /\ (forall u, In u y -> 0 <= u <= 1)).

(** Reconstruction error of [y] for the target [x]: the squared distance, or the binary
    cross entropy with logarithms cut off at -100. *)
Definition cut_log (p : R) : R := if Rle_dec p (exp (-100)) then -100 else ln p.
Definition rec_error (bce : bool) (x y : list R) : R :=
  bsum (length x) (fun i =>
    if bce then - (nth i x 0 * cut_log (nth i y 0)) - (1 - nth i x 0) * cut_log (1 - nth i y 0)
    else (nth i y 0 - nth i x 0) * (nth i y 0 - nth i x 0)).

(** [sample_terms c n x t]: the loss of sample [x] is defined, with terms [t] *)
Definition sample_terms {X Z} (c : apc_config) (n : apc_net X Z) (x : X) (t : terms) : Prop :=
  let e := enc _ _ n x in
  (0 < w_kld c \/ decode_mpe c = true -> e_stats _ e <> None) /\
  (if Rlt_dec 0 (w_rec c) then
     exists z, (if decode_mpe c then exists k, e_stats _ e = Some (k, z) else z = e_z _ e) /\
       fits_target (rec_bce c) (flat _ _ n x) (dec _ _ n z) /\
       t_rec t = rec_error (rec_bce c) (flat _ _ n x) (dec _ _ n z)
   else t_rec t = 0) /\
  (if Rlt_dec 0 (w_kld c) then exists z, e_stats _ e = Some (t_kld t, z) else t_kld t = 0) /\
  (t_nll t = if Rlt_dec 0 (w_nll c) then - (if nll_joint c then joint_ll _ _ n x (e_z _ e) else marg_ll _ _ n x) else 0).

(** arithmetic mean *)
Definition mean (l : list R) : R := lsumR l / INR (length l).

(** the batch metrics made of its samples' terms *)
Definition metrics_of (c : apc_config) (ts : list terms) : metrics :=
  let r := mean (map t_rec ts) in let k := mean (map t_kld ts) in let l := mean (map t_nll ts) in
  mkMetrics r k l (w_rec c * r + w_kld c * k + w_nll c * l).

(** ** a training run *)
Section Run.
  Variables P B : Type.
  Variable loss : bool -> P -> B -> result metrics.
  Variable update : P -> B -> result P.

  (** [steps p bs ms p']: training on the batches in order from parameters [p]
      ends in [p'], the metrics of the batches being [ms] *)
  Inductive steps : P -> list B -> list metrics -> P -> Prop :=
  | steps_nil p : steps p [] [] p
  | steps_cons p b m q bs ms p' :
      loss true p b = Ok m -> update p b = Ok q -> steps q bs ms p' -> steps p (b :: bs) (m :: ms) p'.
End Run.

(** weighted mean of a metric over batches of given sizes *)
Definition wmean (ns : list nat) (l : list R) : R :=
  lsumR (map (fun p => snd p * INR (fst p)) (combine ns l)) / INR (fold_right Nat.add O ns).
Definition mean_metrics (ns : list nat) (ms : list metrics) : metrics :=
  mkMetrics (wmean ns (map m_rec ms)) (wmean ns (map m_kld ms)) (wmean ns (map m_nll ms)) (wmean ns (map m_total ms)).
