(** Model of continuous mixtures: spflow/zoo/cms/{rqmc.py, continuous_mixtures.py,
    joint.py}.

    Idealisations: floats are reals; a cell is a real number or NaN (the code also
    treats +-inf as missing while training, line 138); integrality checks are exact
    instead of up to torch.allclose's tolerance (142, 160).  The decoder network,
    the optimiser and the Sobol points are abstract: the decoder is a function from
    its parameters to the output matrix at the (fixed) evaluation points, one epoch
    of training is an arbitrary function on the parameters. *)
From Coq Require Import List Arith ZArith Bool Reals.
From Verif Require Import Base ScopeModel CircuitModel LeafModel SampleModel CltModel.
Import ListNotations.
Local Open Scope R_scope.

(** [FactorizedLeaf], num_cats and normal_eps (continuous_mixtures.py 36, 126-127) *)
Inductive family := Bern | Catg (num_cats : option nat) | Gauss (eps : R).

(** rqmc.py 63-68, 94: the weights; [eps] keeps its default *)
Definition rqmc_weights (num_points latent_dim : nat) : result (nat -> R) :=
  if Nat.ltb num_points 1 then Err
  else if Nat.ltb latent_dim 1 then Err
  else Ok (fun _ => 1 / INR num_points).

(** rqmc.py 84-85: random shift modulo 1, then clamping into [eps, 1 - eps];
    torch.remainder(u, 1) is the fractional part *)
Definition rqmc_unit (eps u shift : R) : R := Rmin (Rmax (frac_part (u + shift)) eps) (1 - eps).

(** continuous_mixtures.py 69-77: the row indices of the mini-batches of one epoch;
    [perm] is what torch.randperm returned *)
Fixpoint chunks (fuel size : nat) (l : list nat) : list (list nat) :=
  match fuel with
  | O => []
  | S k => match l with [] => [] | _ => firstn size l :: chunks k size (skipn size l) end
  end.
Definition minibatches (num_rows batch_size : nat) (perm : list nat) : list (list nat) :=
  if Nat.leb num_rows batch_size then [seq 0 num_rows] else chunks num_rows batch_size perm.

(** continuous_mixtures.py 93-102 *)
Definition sum_close (s : R) : bool := rle (Rabs (s - 1)) (/ 10 ^ 6).
Definition broadcast_weights (n : nat) (w : nat -> R) (num_features : nat) : result wtensor :=
  if negb (allb n (fun i => rlt 0 (w i))) then Err
  else if negb (sum_close (bsum n w)) then Err
  else Ok (mkW num_features n 1 1 (fun _ i _ _ => w i)).

(** 139-145, 155, 160-163: the cells accepted while training; [None] = NaN (masked) *)
Definition cell_valid (fm : family) (o : option R) : bool :=
  match o with
  | None => true
  | Some a =>
      match fm with
      | Bern => match asnat a with Some k => Nat.leb k 1 | None => false end
      | Catg (Some K) => match asnat a with Some k => Nat.ltb k K | None => false end
      | Catg None => false
      | Gauss _ => true
      end
  end.
Definition family_valid (fm : family) : bool :=
  match fm with Catg None => false | Catg (Some K) => Nat.leb 2 K | _ => true end.

(** 146-151, 164-175, 180-190: the score of one cell under one integration point whose
    decoder output is [out]; a NaN cell scores 0 *)
Definition cell_ll (fm : family) (F : nat) (out : nat -> R) (f : nat) (o : option R) : R :=
  match o with
  | None => 0
  | Some a =>
      match fm with
      | Bern => a * - softplus (- out f) + (1 - a) * - softplus (out f)
      | Catg (Some K) =>
          log_softmax K (fun k => out (f * K + k)%nat) (match asnat a with Some k => k | None => 0%nat end)
      | Catg None => 0
      | Gauss eps =>
          let loc := out f in
          let scale := softplus (out (F + f)%nat) + eps in
          let z := (a - loc) / scale in
          - (1 / 2) * (z * z + 2 * ln scale + ln (2 * PI))
      end
  end.

(** 121-193: component log-likelihoods of a batch, per row and integration point *)
Definition component_ll (fm : family) (F : nat) (out : nat -> nat -> R) (rows : list row)
  : result (list (nat -> R)) :=
  if negb (family_valid fm) then Err
  else if negb (forallb (fun x => allb F (fun f => cell_valid fm (x f))) rows) then Err
  else Ok (map (fun x i => bsum F (fun f => cell_ll fm F (out i) f (x f))) rows).

(** 196-211 for one row *)
Definition mixture_ll (n : nat) (w : nat -> R) (cl : nat -> R) : lval :=
  lse n (fun i => Fin (ln (Rmax (w i) (/ 10 ^ 30)) + cl i)).

(** mix_ll.mean().item() (326): [None] is NaN, the mean of an empty batch.  The
    mixture scores are finite reals here, see [mixture_ll]. *)
Definition fin (v : lval) : R := match v with Fin a => a | NInf => 0 end.
Definition mean (l : list R) : option R :=
  match l with [] => None | _ => Some (lsumR l / INR (length l)) end.
(** 306-326 (eval_ll_mean) *)
Definition eval_score (fm : family) (F n : nat) (w : nat -> R) (out : nat -> nat -> R) (rows : list row)
  : result (option R) :=
  bind (component_ll fm F out rows) (fun ls => Ok (mean (map (fun cl => fin (mixture_ll n w cl)) ls))).

(** ** Compilation *)

Fixpoint mapr {A B} (f : A -> result B) (l : list A) : result (list B) :=
  match l with [] => Ok [] | a :: r => bind (f a) (fun b => bind (mapr f r) (fun bs => Ok (b :: bs))) end.

(** 434-467: the leaf of feature [j]; normal.py 55-58 stores the logarithm of scale *)
Definition comp_fam (fm : family) (F : nat) (out : nat -> R) (j : nat) : result fam :=
  match fm with
  | Bern => Ok (FBernoulli (out j))
  | Catg None => Err
  | Catg (Some K) => Ok (FCategorical K (fun k => out (j * K + k)%nat))
  | Gauss eps => Ok (FNormal (out j) (ln (softplus (out (F + j)%nat) + eps)))
  end.
Definition comp_leaf (fm : family) (F : nat) (out : nat -> R) (j : nat) : result fleaf :=
  bind (comp_fam fm F out j) (fun fa => Ok (mk_fleaf (mkScope [j] []) 1 1 (fun _ _ _ => fa))).
(** [mode] stands for [dist.mode] of the leaves, unused by log_likelihood *)
Definition component (mode : fam -> R) (fm : family) (F : nat) (out : nat -> R) : result module :=
  bind (mapr (comp_leaf fm F out) (seq 0 F)) (fun ls =>
    mk_product (map (fun l => MLeaf (fl_leaf l (fun f c r => mode (fl_fam l f c r)))) ls)).
(** 416-479; components[0] fails without integration points *)
Definition compile_factorized (mode : fam -> R) (fm : family) (F n : nat) (out : nat -> nat -> R) (w : nat -> R)
  : result module :=
  bind (mapr (fun i => component mode fm F (out i)) (seq 0 n)) (fun comps =>
    match comps with
    | [] => Err
    | c0 :: _ =>
        bind (broadcast_weights n w (features (out_shape c0))) (fun wt =>
        bind (sum_inputs comps) (fun c => mk_sum_w c 1 1 (W4 wt)))
    end).

(** ** Training with early stopping: 302-304, 328-370 (701-734 for trees) *)

(** [ll_mean > best_val] on floats that may be NaN *)
Definition fgt (a b : option R) : bool :=
  match a, b with Some x, Some y => rlt y x | _, _ => false end.

Section Train.
  Variable St : Type.
  (** one epoch of optimisation; the evaluation score *)
  Variables (epoch_step : nat -> St -> St) (score : St -> option R).

  (** [k] epochs remain, [e] is the index of the next one; [best] = (best_val,
      best_state), [bad] = bad_epochs *)
  Fixpoint train (monitor : bool) (patience : nat) (k e : nat) (s : St) (best : option (option R * St)) (bad : nat) : St :=
    let final s best := match best with Some (_, b) => b | None => s end in
    match k with
    | O => final s best
    | S k' =>
        let s' := epoch_step e s in
        if monitor then
          let v := score s' in
          if match best with None => true | Some (bv, _) => fgt v bv end
          then train monitor patience k' (S e) s' (Some (v, s')) 0
          else
            let bad' := S bad in
            if Nat.ltb 0 patience && Nat.leb patience bad' then final s' best
            else train monitor patience k' (S e) s' best bad'
        else train monitor patience k' (S e) s' best bad
    end.
  (** 357: evaluation happens with validation data or a positive patience *)
  Definition fit (has_val : bool) (patience epochs : nat) (s0 : St) : St :=
    train (has_val || Nat.ltb 0 patience) patience epochs 0 s0 None 0.
  (** 511-555: latent optimisation always evaluates *)
  Definition latent_opt (patience epochs : nat) (z0 : St) : St := train true patience epochs 0 z0 None 0.
End Train.

(** 214-413 without latent optimisation: the decoder's parameters have type [St],
    [dec s i] is the decoder output at the i-th evaluation point (396-402 draws the
    same points as 307-313: seed=42); invalid rows raise in the first epoch. *)
Definition learn_factorized {St} (mode : fam -> R) (epoch_step : nat -> St -> St) (dec : St -> nat -> nat -> R)
  (fm : family) (F latent_dim points batch_size epochs patience : nat) (data : list row) (val : option (list row)) (s0 : St)
  : result module :=
  if Nat.ltb latent_dim 1 || Nat.ltb points 1 || Nat.ltb epochs 1 || Nat.ltb batch_size 1 then Err
  else
    bind (rqmc_weights points latent_dim) (fun w =>
    let rows := match val with Some v => v | None => data end in
    bind (component_ll fm F (dec s0) data) (fun _ =>
    bind (component_ll fm F (dec s0) rows) (fun _ =>
    let score s := match eval_score fm F points w (dec s) rows with Ok v => v | Err => None end in
    let s := fit St epoch_step score (match val with Some _ => true | None => false end) patience epochs s0 in
    compile_factorized mode fm F points (dec s) w))).

(** ** Chow-Liu trees *)

(** 650-661: the conditional tables decoded from one row [raw] of decoder outputs;
    [log_cpt f xi xp] *)
Definition decode_cpt (F K root : nat) (raw : nat -> R) (f xi xp : nat) : R :=
  if Nat.eqb f root then log_softmax K raw xi
  else log_softmax K (fun a => raw (K + ((f * K + a) * K + xp))%nat) xi.

(** 663-685 (814-831): one integration point, one complete row; the tables are read
    through the flattened index xi * K + xp *)
Definition tree_ll (F K root : nat) (parents : list Z) (cpt : nat -> nat -> nat -> R) (x : nat -> nat) : R :=
  fold_left (fun acc i =>
      if Z.eqb (par parents i) (-1) then acc
      else let lin := (x i * K + x (Z.to_nat (par parents i)))%nat in acc + cpt i (lin / K)%nat (lin mod K)%nat)
    (seq 0 F) (cpt root (x root) 0%nat).

(** 861-902, first half: the component trees *)
Definition compile_trees (F K : nat) (alpha : R) (parents : list Z) (n : nat) (raw : nat -> nat -> R)
  : result (list cltree) :=
  mapr (fun i => mk_cltree (seq 0 F) 1 1 K alpha parents
                   (fun f _ _ xi xp => Fin (decode_cpt F K (root_of parents) (raw i) f xi xp))) (seq 0 n).
(** 894-902: the Sum over the trees (channel-concatenated by Cat(dim=2), sum.py
    100-106, unless there is one) with weights log(w), and the wrapper. *)
Record tree_mixture := mkTM { tm_trees : list cltree; tm_F : nat; tm_logits : nat -> R }.
Definition compile_cltree (F K : nat) (alpha : R) (parents : list Z) (n : nat) (raw : nat -> nat -> R) (w : nat -> R)
  : result tree_mixture :=
  bind (compile_trees F K alpha parents n raw) (fun ts =>
  bind (broadcast_weights n w F) (fun wt =>
  match ts with [] => Err | _ => Ok (mkTM ts F (fun i => ln (wv wt 0 i 0 0))) end)).

(** sum.py 264-280 over cat.py 98-106: per feature the mixture of the channels; one
    row whose leaf values are [vs] *)
Definition mix_feature (n : nat) (lg : nat -> R) (vs : list (nat -> nat -> nat -> lval)) (f : nat) : lval :=
  lse n (fun i => ladd (nth i vs (fun _ _ _ => NInf) f 0%nat 0%nat) (Fin (log_softmax n lg i))).
(** joint.py 45-48: the sum over the features *)
Definition joint_ll (m : tree_mixture) (rows : list cells) : result (list lval) :=
  bind (mapr (fun t => clt_loglik t rows) (tm_trees m)) (fun vss =>
    Ok (map (fun b => ladds (tm_F m)
                (mix_feature (length (tm_trees m)) (tm_logits m) (map (fun vs => nth b vs (fun _ _ _ => NInf)) vss)))
            (seq 0 (length rows)))).

(** joint.py 50-79, sum.py 300-376 without cached evidence, cat.py 148-176: every
    feature draws a component; each tree in turn fills the NaN cells routed to it
    (channel 0 of its only channel, sampling_context.py 698-705), seeing the cells the
    earlier trees have filled; a tree without such a cell returns at once
    (cltree.py 523-525). *)
Definition routed (mask : nat -> bool) (ch : nat -> nat) (i : nat) (f : nat) : bool := Nat.eqb (ch f) i && mask f.
Definition wanted (F : nat) (mask : nat -> bool) (x : cells) : bool :=
  existsb (fun f => mask f && match x f with None => true | Some _ => false end) (seq 0 F).
Fixpoint fill_trees (mpe : bool) (junk : nat -> nat) (F : nat) (mask : nat -> bool) (ch : nat -> nat)
  (i : nat) (ts : list cltree) (x : cells) : prog cells :=
  match ts with
  | [] => Ret x
  | t :: rest =>
      pbind (if wanted F (routed mask ch i) x
             then clt_sample mpe junk t (fun _ => 0%nat) 0 (routed mask ch i) x else Ret x)
            (fill_trees mpe junk F mask ch (S i) rest)
  end.
Definition joint_sample (mpe : bool) (junk : nat -> nat) (m : tree_mixture) (x : cells) : prog cells :=
  pbind (pick_channels mpe (tm_F m) (length (tm_trees m)) (fun _ => tm_logits m)) (fun ch =>
    match tm_trees m with
    | [t] => if wanted (tm_F m) (fun _ => true) x then clt_sample mpe junk t ch 0 (fun _ => true) x else Ret x
    | ts => fill_trees mpe junk (tm_F m) (fun _ => true) ch 0 ts x
    end).

(** joint.py 89-95 with sum.py 436-517 and cat.py 180-223 on the compiled mixture:
    None if nothing of the scope remains; a new Sum over the same trees with the same
    weights if nothing is removed; otherwise every tree is asked to marginalise itself *)
Definition joint_marginalize (m : tree_mixture) (marg : list nat) : result (option tree_mixture) :=
  let gone v := existsb (Nat.eqb v) marg in
  if forallb gone (seq 0 (tm_F m)) then Ok None
  else if existsb gone (seq 0 (tm_F m)) then
    bind (mapr (fun t => clt_marginalize t marg) (tm_trees m)) (fun l =>
      let kept := flat_map (fun o => match o with Some t => [t] | None => [] end) l in
      if Nat.eqb (length kept) 0 then Ok None else Ok (Some (mkTM kept (tm_F m) (tm_logits m))))
  else Ok (Some (mkTM (tm_trees m) (tm_F m) (fun i => ln (softmax (length (tm_trees m)) (tm_logits m) i)))).
