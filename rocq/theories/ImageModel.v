(** Model of spflow/modules/wrapper/image_wrapper.py (ImageWrapper over the circuits of
    CircuitModel) and of the parts of modules/module.py it inherits.

    Idealisations as in CircuitModel, SampleModel and MargModel: floats are reals, one
    image of the batch at a time, tensors are functions of their indices with extents.
    The aliasing of the caller's tensor by the flattened view, devices and the EM step
    (147-172, a pure delegation) are not modelled. *)
From Coq Require Import List Arith Bool ZArith.
From Verif Require Import Base ScopeModel CircuitModel MargModel SampleModel SignedModel.
Import ListNotations.

(** image_wrapper.py 72-75; Python integers *)
Record imw := mkImw { w_mod : module; w_c : Z; w_h : Z; w_w : Z }.

(** 57-80 *)
Definition mk_image (m : module) (c h w : Z) : result imw :=
  if Z.eqb (Z.of_nat (length (query (scope_of m)))) (h * w * c) then Ok (mkImw m c h w) else Err.

(** one image of a four-dimensional data tensor: extents and pixels *)
Record imdata := mkData { d_c : nat; d_h : nat; d_w : nat; d_px : nat -> nat -> nat -> option R }.

(** 102: rearrange "b c h w -> b (c h w)"; columns past the end do not exist *)
Definition flat (d : imdata) : row := fun u =>
  if Nat.ltb u (d_c d * d_h d * d_w d)
  then d_px d (u / (d_h d * d_w d)) ((u / d_w d) mod d_h d) (u mod d_w d) else None.

(** 82-102; the number of columns and the row.  Only the channel extent is checked. *)
Definition flatten (g : imw) (d : imdata) : result (nat * row) :=
  if Z.eqb (Z.of_nat (d_c d)) (w_c g) then Ok ((d_c d * d_h d * d_w d)%nat, flat d) else Err.

(** 104-142: rearrange "(c h w) -> c h w" of [n] entries; einops raises unless the
    extents are natural numbers whose product is [n] *)
Definition to_image {A} (g : imw) (n : nat) (x : nat -> A) : result (nat -> nat -> nat -> A) :=
  if (Z.leb 0 (w_c g) && Z.leb 0 (w_h g) && Z.leb 0 (w_w g) && Z.eqb (Z.of_nat n) (w_c g * w_h g * w_w g))%bool
  then Ok (fun c h w => x (c * (Z.to_nat (w_h g) * Z.to_nat (w_w g)) + h * Z.to_nat (w_w g) + w)%nat)
  else Err.

(** 166-169, 199-202: the strict shape check *)
Definition same_shape (g : imw) (d : imdata) : bool :=
  (Z.eqb (Z.of_nat (d_c d)) (w_c g) && Z.eqb (Z.of_nat (d_h d)) (w_h g) && Z.eqb (Z.of_nat (d_w d)) (w_w g))%bool.

(** 174-207.  The wrapped module indexes [data[:, scope.query]] (leaf.py 432) and raises
    when its tensors do not broadcast. *)
Definition image_ll (g : imw) (d : imdata) : result (shape * (nat -> nat -> nat -> lval)) :=
  if negb (same_shape g d) then Err
  else bind (flatten g d) (fun nx =>
       bind (ll_shape (w_mod g)) (fun s =>
       if forallb (fun v => Nat.ltb v (fst nx)) (query (scope_of (w_mod g)))
       then Ok (s, loglik (w_mod g) (snd nx)) else Err)).

(** 268-291, [ev]: the flattened row whose log-likelihoods are in the cache *)
Definition image_sample_ev (mpe : bool) (g : imw) (ev : option row) (d : imdata) : prog imdata :=
  match flatten g d with
  | Err => Raise
  | Ok (n, x) =>
      pbind (sample_m mpe n ev (w_mod g) init_ctx x) (fun y =>
      match to_image g n y with
      | Err => Raise
      | Ok im => Ret (mkData (Z.to_nat (w_c g)) (Z.to_nat (w_h g)) (Z.to_nat (w_w g)) im)
      end)
  end.

(** 240-291: sample(data=d, is_mpe=mpe) with a fresh cache *)
Definition image_sample (mpe : bool) (g : imw) (d : imdata) : prog imdata := image_sample_ev mpe g None d.

(** 229-236: sample(num_samples=n): NaN images (a wrapper with negative extents raises) *)
Definition image_sample_new (mpe : bool) (g : imw) : prog imdata :=
  if (Z.leb 0 (w_c g) && Z.leb 0 (w_h g) && Z.leb 0 (w_w g))%bool
  then image_sample mpe g (mkData (Z.to_nat (w_c g)) (Z.to_nat (w_h g)) (Z.to_nat (w_w g)) (fun _ _ _ => None))
  else Raise.

(** module.py 297-329: log_likelihood of the evidence into the cache, then sample *)
Definition image_sample_with_evidence (mpe : bool) (g : imw) (d : imdata) : prog imdata :=
  match image_ll g d with
  | Err => Raise
  | Ok _ => image_sample_ev mpe g (Some (flat d)) d
  end.

(** tensor indexing along an axis of extent [n] *)
Definition pyidx (n : Z) (i : Z) : result nat :=
  if (Z.leb 0 i && Z.ltb i n)%bool then Ok (Z.to_nat i)
  else if (Z.leb (- n) i && Z.ltb i 0)%bool then Ok (Z.to_nat (n + i)) else Err.

(** 307-350; [sc c h w]: the scope in image layout *)
Definition image_marg (cs hs ws : list Z) (prune : bool) (g : imw) : result (option imw) :=
  let q := query (scope_of (w_mod g)) in
  let C := Z.to_nat (w_c g) in let H := Z.to_nat (w_h g) in let W := Z.to_nat (w_w g) in
  bind (to_image g (length q) (fun i => nth i q 0%nat)) (fun sc =>
  bind (mapR (pyidx (w_h g)) hs) (fun hi =>
  bind (mapR (pyidx (w_w g)) ws) (fun wi =>
  bind (mapR (pyidx (w_c g)) cs) (fun ci =>
  let rvs := flat_map (fun h => flat_map (fun c => map (fun w => sc c h w) (seq 0 W)) (seq 0 C)) hi
          ++ flat_map (fun w => flat_map (fun c => map (fun h => sc c h w) (seq 0 H)) (seq 0 C)) wi
          ++ flat_map (fun c => flat_map (fun h => map (fun w => sc c h w) (seq 0 W)) (seq 0 H)) ci in
  bind (marg rvs prune (w_mod g)) (fun o =>
  match o with
  | None => Ok None
  | Some m' =>
      bind (mk_image m' (w_c g - Z.of_nat (length cs)) (w_h g - Z.of_nat (length hs)) (w_w g - Z.of_nat (length ws)))
        (fun g' => Ok (Some g'))
  end))))).
