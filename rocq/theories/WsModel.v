(** Model of spflow/zoo/pic/weighted_sum.py: a sum with raw, not normalised, weights over an
    arbitrary circuit built from leaves, Sum, Product and Cat.  Devices and dtypes are not
    modelled; integer routing only. *)
From Coq Require Import List Arith Bool Reals.
From Verif Require Import Base ScopeModel CircuitModel MargModel SampleModel.
Import ListNotations.
Local Open Scope R_scope.

(** [w_w]: the 4D weights (features, in, out, repetitions) *)
Record ws := mkWs { w_in : module; w_w : wtensor }.

(** 103-104 *)
Definition weights_nonneg (w : wtensor) : bool :=
  allb (wF w) (fun f => allb (wI w) (fun i => allb (wO w) (fun o => allb (wR w) (fun r => rle 0 (wv w f i o r))))).
(** 107-108: broadcast over features *)
Definition spread (F : nat) (w : wtensor) : wtensor :=
  if (Nat.eqb (wF w) 1 && Nat.ltb 1 F)%bool then mkW F (wI w) (wO w) (wR w) (fun _ i o r => wv w 0 i o r) else w.
(** 70-76 *)
Definition ws_input (cs : list module) : result module :=
  match cs with [] => Err | [c] => Ok c | _ => mk_cat true cs end.
(** 46-129; 5D weights and more, which raise, are not expressible in [warg] *)
Definition mk_ws (cs : list module) (wa : warg) : result ws :=
  bind (ws_input cs) (fun c =>
    let w := norm_warg wa in
    if negb (weights_nonneg w) then Err
    else let w' := spread (features (out_shape c)) w in
      if negb (Nat.eqb (wF w') (features (out_shape c))) then Err
      else if negb (Nat.eqb (wI w') (channels (out_shape c))) then Err
      else Ok (mkWs c w')).
(** 124-126 *)
Definition ws_shape (s : ws) : shape := mkShape (features (out_shape (w_in s))) (wO (w_w s)) (wR (w_w s)).

(** 144-155: the weights setter *)
Definition ws_set (s : ws) (v : wtensor) : result ws :=
  if weights_shape_ok v (wF (w_w s)) (wI (w_w s)) (wO (w_w s)) (wR (w_w s)) then Ok (mkWs (w_in s) v) else Err.

(** 157-165, 188-199: log sum_i exp(ll_i + log w_i) for one row; broadcasting over
    repetitions; [lfrom]: log of positive numbers, -inf otherwise *)
Definition ws_ll (s : ws) (x : row) (f c r : nat) : lval :=
  let ch := w_in s in
  lse (channels (out_shape ch)) (fun i =>
    ladd (loglik ch x f i (bidx (ll_reps ch) r)) (lfrom (wv (w_w s) f i c (bidx (wR (w_w s)) r)))).
(** shape of the result, with torch's broadcasting failures (191-199) *)
Definition ws_ll_shape (s : ws) : result shape :=
  bind (ll_shape (w_in s)) (fun t =>
  bind (bcast (features t) (wF (w_w s))) (fun F =>
  bind (bcast (channels t) (wI (w_w s))) (fun _ =>
  bind (bcast (repetitions t) (wR (w_w s))) (fun R => Ok (mkShape F (wO (w_w s)) R))))).

(** 231-268 for one feature [f] routed to channel [c] at repetition [r] (gather raises when
    out of range): the input channel; the cached log-likelihoods are not used *)
Definition ws_pick (mpe : bool) (s : ws) (r f c : nat) : prog nat :=
  let n := wI (w_w s) in
  let g i := wv (w_w s) f i c r in
  if (Nat.ltb c (wO (w_w s)) && Nat.ltb r (wR (w_w s)))%bool then
    if mpe then Ret (argmax n (fun i => Fin (g i)))
    else if Rle_dec (bsum n g) 0 then Raise
    else if negb (allb n (fun i => rle 0 (g i))) then Raise (* Categorical's argument check *)
    else Choose n (fun i => g i / bsum n g) (fun i => Ret i)
  else Raise.
(** 203-279 *)
Definition ws_sample (mpe : bool) (W : nat) (ev : option row) (s : ws) (t : ctx) (x : row) : prog row :=
  let F := features (out_shape (w_in s)) in
  if validate [1%nat; F] (wO (w_w s)) (wR (w_w s)) t then
    match broadcast F t with
    | Err => Raise
    | Ok t1 =>
        pbind (choose_channels (ws_pick mpe s (c_rep t1)) 0 (c_ci t1)) (fun ns =>
          sample_m mpe W ev (w_in s) (mkCtx ns (c_mask t1) (c_rep t1)) x)
    end
  else Raise.
(** module.py: sample(data=x), and sample_with_evidence, which first evaluates
    log_likelihood and fills the cache *)
Definition ws_sample_data (mpe : bool) (W : nat) (s : ws) (x : row) : prog row := ws_sample mpe W None s init_ctx x.
Definition ws_sample_evidence (mpe : bool) (W : nat) (s : ws) (e : row) : prog row :=
  match ws_ll_shape s with
  | Err => Raise
  | Ok _ => if forallb (fun v => Nat.ltb v W) (query (scope_of (w_in s))) then ws_sample mpe W (Some e) s init_ctx e else Raise
  end.

(** 281-352; [feature_to_scope[:, r]] (315) for every repetition r of the weights raises if
    the array has fewer columns *)
Definition ws_marg (S : list nat) (prune : bool) (s : ws) : result (option ws) :=
  let c := w_in s in
  if covers S (scope_of c) then Ok None
  else if touches S (scope_of c) then
    bind (marg S prune c) (fun oc =>
      match oc with
      | None => Ok None
      | Some c' =>
          if (Nat.ltb (fts_cols c) (wR (w_w s)) || Nat.eqb (wR (w_w s)) 0)%bool then Err
          else bind (mk_ws [c'] (W4 (mask_weights (kidx S (fts c)) (w_w s)))) (fun s' => Ok (Some s'))
      end)
  else bind (mk_ws [c] (W4 (w_w s))) (fun s' => Ok (Some s')).
