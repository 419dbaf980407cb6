(** Model of the convolutional modules: SumConv, ProdConv (spflow/modules/conv/
    sum_conv.py, prod_conv.py, utils.py), Sum and Product on top of them
    (modules/sums/sum.py, modules/products/product.py) and ConvPc
    (spflow/zoo/conv/conv_pc.py).

    Idealisations as in CircuitModel and SampleModel: floats are reals, tensors are
    functions of their indices with extents, one data row at a time; [int(F ** 0.5)]
    is the exact integer square root; paddings are natural numbers. *)
From Coq Require Import List Arith Bool.
From Verif Require Import Base ScopeModel CircuitModel MargModel SampleModel.
Import ListNotations.
Local Open Scope R_scope.

(** [VMod m]: any circuit of CircuitModel as input.  [VSum c co rr lg]: sum.py over a
    convolutional input, logits [lg f ci co r] (123-126).  [VProduct c]: product.py.
    [VSumConv c co K rr lg]: sum_conv.py, kernel [K], logits [lg co ci kh kw r]
    (93-99).  [VProdConv c kh kw ph pw]: prod_conv.py, kernel and padding (69-73). *)
Inductive cv :=
| VMod (m : module)
| VSum (c : cv) (co rr : nat) (lg : nat -> nat -> nat -> nat -> R)
| VProduct (c : cv)
| VSumConv (c : cv) (co K rr : nat) (lg : nat -> nat -> nat -> nat -> nat -> R)
| VProdConv (c : cv) (kh kw ph pw : nat).

(** prod_conv.py 84-87: output extent of one dimension *)
Definition conv_out (n k p : nat) : nat := ((n + 2 * p) / k)%nat.

(** out_shape: sum.py 112-115, product.py 46-48, sum_conv.py 86-90, prod_conv.py
    80-100.  The grid of [F] features is sqrt F by sqrt F (sum_conv.py 195,
    prod_conv.py 80). *)
Fixpoint vshape (v : cv) : shape :=
  match v with
  | VMod m => out_shape m
  | VSum c co rr _ => mkShape (features (vshape c)) co rr
  | VProduct c => mkShape 1 (channels (vshape c)) (repetitions (vshape c))
  | VSumConv c co _ rr _ => mkShape (features (vshape c)) co rr
  | VProdConv c kh kw ph pw =>
      let n := Nat.sqrt (features (vshape c)) in
      mkShape (conv_out n kh ph * conv_out n kw pw) (channels (vshape c)) (repetitions (vshape c))
  end.

(** sum_conv.py 195, prod_conv.py 80 *)
Definition side (v : cv) : nat := Nat.sqrt (features (vshape v)).

(** prod_conv.py 143-151: range(max(0, o*k - p), min(n, o*k - p + k)) *)
Definition win1 (n k p o : nat) : list nat :=
  seq (o * k - p) (Nat.min n (o * k + k - p) - (o * k - p)).

(** prod_conv.py 139-152: the input features of the patch of output feature [f] *)
Definition window (n kh kw ph pw f : nat) : list nat :=
  let ow := conv_out n kw pw in
  flat_map (fun ih => map (fun iw => (ih * n + iw)%nat) (win1 n kw pw (f mod ow))) (win1 n kh ph (f / ow)).

(** feature_to_scope: sum.py 186-187, product.py 51-56, sum_conv.py 109-111,
    prod_conv.py 118-163 ([pjoin []] is the empty scope of an all-padding patch) *)
Fixpoint vfts (v : cv) : list (list nat) :=
  match v with
  | VMod m => fts m
  | VSum c _ _ _ => vfts c
  | VProduct c => [pjoin (vfts c)]
  | VSumConv c _ _ _ _ => vfts c
  | VProdConv c kh kw ph pw =>
      map (fun f => pjoin (map (fun g => nth g (vfts c) []) (window (side c) kh kw ph pw f)))
          (seq 0 (features (vshape (VProdConv c kh kw ph pw))))
  end.

(** scope: sum.py 109, product.py 43, sum_conv.py 82, prod_conv.py 106-115 *)
Fixpoint vscope (v : cv) : scope :=
  match v with
  | VMod m => scope_of m
  | VSum c _ _ _ => vscope c
  | VProduct c => vscope c
  | VSumConv c _ _ _ _ => vscope c
  | VProdConv c _ _ _ _ => mkScope (sortu (concat (vfts c))) []
  end.

(** ** Constructors.  [lg] is the logits parameter: the logarithm of normalised random
    weights at construction (sum.py 179-183, sum_conv.py 102-106), anything of the same
    shape after assigning weights / log_weights or training; hence arbitrary. *)

(** Sum(inputs, out_channels, num_repetitions): sum.py 94 *)
Definition mk_vsum (c : cv) (co rr : nat) lg : result cv :=
  if Nat.ltb co 1 then Err else Ok (VSum c co rr lg).
(** Product(inputs): product.py 25-48 *)
Definition mk_vproduct (c : cv) : result cv := Ok (VProduct c).
(** SumConv(...): sum_conv.py 66-106 *)
Definition mk_sumconv (c : cv) (co K rr : nat) lg : result cv :=
  if Nat.ltb co 1 then Err else if Nat.ltb K 1 then Err else Ok (VSumConv c co K rr lg).
(** ProdConv(...): prod_conv.py 62-104; the assertion of line 81 *)
Definition mk_prodconv (c : cv) (kh kw ph pw : nat) : result cv :=
  if Nat.ltb kh 1 then Err else if Nat.ltb kw 1 then Err
  else if Nat.eqb (side c * side c) (features (vshape c)) then Ok (VProdConv c kh kw ph pw) else Err.

(** Circuits a user can construct. *)
Inductive vbuilt : cv -> Prop :=
| vb_mod m : built m -> vbuilt (VMod m)
| vb_sum c co rr lg v : vbuilt c -> mk_vsum c co rr lg = Ok v -> vbuilt v
| vb_product c v : vbuilt c -> mk_vproduct c = Ok v -> vbuilt v
| vb_sumconv c co K rr lg v : vbuilt c -> mk_sumconv c co K rr lg = Ok v -> vbuilt v
| vb_prodconv c kh kw ph pw v : vbuilt c -> mk_prodconv c kh kw ph pw = Ok v -> vbuilt v.

(** SumConv.weights setter: sum_conv.py 141-149; [w co ci kh kw r], extents
    (wo, wi, wh, ww, wr).  proj_convex_to_real is the logarithm. *)
Definition set_conv_weights (c : cv) (co K rr : nat) (wo wi wh ww wr : nat)
    (w : nat -> nat -> nat -> nat -> nat -> R) : result cv :=
  if negb (Nat.eqb wo co && Nat.eqb wi (channels (vshape c)) && Nat.eqb wh K && Nat.eqb ww K && Nat.eqb wr rr) then Err
  else if negb (allb wo (fun o => allb wi (fun i => allb wh (fun a => allb ww (fun b => allb wr (fun r => rlt 0 (w o i a b r))))))) then Err
  else if negb (allb wo (fun o => allb wh (fun a => allb ww (fun b => allb wr (fun r => close1 (bsum wi (fun i => w o i a b r))))))) then Err
  else Ok (VSumConv c co K rr (fun o i a b r => ln (w o i a b r))).

(** SumConv.weights: sum_conv.py 129 *)
Definition conv_weights (c : cv) (lg : nat -> nat -> nat -> nat -> nat -> R) (o i a b r : nat) : R :=
  softmax (channels (vshape c)) (fun j => lg o j a b r) i.

(** ** log_likelihood *)

(** repetition extent of the returned tensor: sum.py 270-275, sum_conv.py 184-191 *)
Fixpoint vll_reps (v : cv) : nat :=
  match v with
  | VMod m => ll_reps m
  | VSum c _ rr _ => if Nat.eqb (vll_reps c) 1 then rr else vll_reps c
  | VProduct c => vll_reps c
  | VSumConv c _ _ rr _ => if Nat.eqb (vll_reps c) 1 then rr else vll_reps c
  | VProdConv c _ _ _ _ => vll_reps c
  end.

(** kernel coordinate SumConv uses at grid coordinate [h]: position 0 when the image
    is smaller than the kernel (sum_conv.py 206-208), h mod K otherwise (234) *)
Definition kpos (n K h : nat) : nat := if Nat.ltb n K then 0%nat else (h mod K)%nat.

(** the logits SumConv uses at input feature [f] *)
Definition conv_logits (c : cv) (K : nat) (lg : nat -> nat -> nat -> nat -> nat -> R) (f i o r : nat) : R :=
  lg o i (kpos (side c) K (f / side c)) (kpos (side c) K (f mod side c)) r.

(** value at padded coordinates (prod_conv.py 208: zero padding) *)
Definition padded (n ph pw : nat) (g : nat -> lval) (a b : nat) : lval :=
  if (Nat.leb ph a && Nat.ltb a (n + ph) && Nat.leb pw b && Nat.ltb b (n + pw))%bool
  then g ((a - ph) * n + (b - pw))%nat else Fin 0.

(** sum.py 264-280, product.py 73-82, sum_conv.py 177-249, prod_conv.py 190-213
    (convolution with a ones kernel, stride = kernel) *)
Fixpoint veval (s : leaf -> nat -> nat -> nat -> lval) (v : cv) (f c r : nat) {struct v} : lval :=
  match v with
  | VMod m => evalm s m f c r
  | VSum ch co rr lg =>
      let n := channels (vshape ch) in
      lse n (fun ci => ladd (veval s ch f ci (bidx (vll_reps ch) r))
                            (Fin (log_softmax n (fun i => lg f i c (bidx rr r)) ci)))
  | VProduct ch => ladds (features (vshape ch)) (fun f' => veval s ch f' c r)
  | VSumConv ch co K rr lg =>
      let n := channels (vshape ch) in
      lse n (fun ci => ladd (veval s ch f ci (bidx (vll_reps ch) r))
                            (Fin (log_softmax n (fun i => conv_logits ch K lg f i c (bidx rr r)) ci)))
  | VProdConv ch kh kw ph pw =>
      let n := side ch in
      let ow := conv_out n kw pw in
      ladds kh (fun a => ladds kw (fun b =>
        padded n ph pw (fun g => veval s ch g c r) (f / ow * kh + a) (f mod ow * kw + b)))
  end.

Definition vloglik (v : cv) (x : row) (f c r : nat) : lval := veval (leaf_score x) v f c r.
(** module.py 494-514 *)
Definition vprob (v : cv) (x : row) (f c r : nat) : R := pr (vloglik v x f c r).

(** Shape of the returned tensor, with the exceptions: sum.py 270-275,
    sum_conv.py 186-191 (repetitions), 196 (square), 222 (divisible unless smaller
    than the kernel); prod_conv.py 203 (einops), 208 (conv2d refuses a kernel larger
    than the padded image). *)
Fixpoint vll_shape (v : cv) : result shape :=
  match v with
  | VMod m => ll_shape m
  | VSum c co rr _ =>
      bind (vll_shape c) (fun s =>
      bind (bcast (features s) (features (vshape c))) (fun F =>
      bind (bcast (channels s) (channels (vshape c))) (fun _ =>
      bind (bcast (repetitions s) rr) (fun R => Ok (mkShape F co R)))))
  | VProduct c => bind (vll_shape c) (fun s => Ok (mkShape 1 (channels s) (repetitions s)))
  | VSumConv c co K rr _ =>
      bind (vll_shape c) (fun s =>
      if (Nat.eqb (repetitions s) 1 && Nat.ltb 1 rr)%bool then Err
      else if (negb (Nat.eqb (repetitions s) rr) && negb (Nat.eqb (repetitions s) 1))%bool then Err
      else
        let n := Nat.sqrt (features s) in
        if negb (Nat.eqb (n * n) (features s)) then Err
        else if (negb (Nat.ltb n K) && negb (Nat.eqb (n mod K) 0))%bool then Err
        else bind (bcast (channels s) (channels (vshape c))) (fun _ =>
             bind (bcast (repetitions s) rr) (fun R => Ok (mkShape (features s) co R))))
  | VProdConv c kh kw ph pw =>
      bind (vll_shape c) (fun s =>
      let n := side c in
      if negb (Nat.eqb (n * n) (features s)) then Err
      else if (Nat.leb kh (n + 2 * ph) && Nat.leb kw (n + 2 * pw))%bool
           then Ok (mkShape (conv_out n kh ph * conv_out n kw pw) (channels s) (repetitions s))
           else Err)
  end.

(** ** Sampling *)

(** sum.py 311-374 and sum_conv.py 297-399 for one feature: the logits [lg i] of the
    routed output channel, plus the cached input log-likelihoods [ll] if present;
    gathers out of range raise *)
Definition mix_pick (mpe : bool) (n co rr lr : nat) (c r : nat) (lg : nat -> R) (ll : option (nat -> lval)) : prog nat :=
  if (Nat.ltb c co && Nat.ltb r rr)%bool then
    match ll with
    | None => sample_logits mpe n (fun i => Fin (lg i))
    | Some g => if Nat.ltb r lr then sample_logits mpe n (fun i => ladd (Fin (lg i)) (g i)) else Raise
    end
  else Raise.

(** utils.py 37-79: repeat every grid position [kh] by [kw] times *)
Definition upsample {A} (d : A) (oh ow kh kw : nat) (l : list A) : list A :=
  flat_map (fun h => map (fun w => nth (h / kh * ow + w / kw) l d) (seq 0 (ow * kw))) (seq 0 (oh * kh)).

(** prod_conv.py 236-308: the sampling context passed to the input.  (The width check
    of 266-274 always succeeds.) *)
Definition prod_route (n F O ph pw kh kw oh ow nch nrep : nat) (t : ctx) : result ctx :=
  if negb (validate [1%nat; O; F] nch nrep t) then Err
  else bind (if Nat.eqb (length (c_ci t)) 1 then broadcast O t else Ok t) (fun t1 =>
    if Nat.eqb (length (c_ci t1)) F then Ok t1
    else if Nat.eqb (length (c_ci t1)) O then
      let ci := upsample 0%nat oh ow kh kw (c_ci t1) in
      let mk := upsample false oh ow kh kw (c_mask t1) in
      if Nat.ltb F (length ci) then
        if (Nat.eqb ph 0 && Nat.eqb pw 0)%bool then Err
        else if negb (Nat.eqb (length ci) ((n + 2 * ph) * (n + 2 * pw))) then Err
        else Ok (mkCtx (firstn F ci) (firstn F mk) (c_rep t1))
      else if Nat.ltb (length ci) F then Err
      else Ok (mkCtx ci mk (c_rep t1))
    else Err).

(** _sample: leaf.py 607, sum.py 282-385, product.py 84-121, sum_conv.py 271-425,
    prod_conv.py 236-317 *)
Fixpoint vsample (mpe : bool) (W : nat) (ev : option row) (v : cv) (t : ctx) (x : row) {struct v} : prog row :=
  match v with
  | VMod m => sample_m mpe W ev m t x
  | VSum ch co rr lg =>
      let F := features (vshape ch) in
      if validate [1%nat; F] co rr t then
        match broadcast F t with
        | Err => Raise
        | Ok t1 =>
            pbind (choose_channels (fun f c => mix_pick mpe (channels (vshape ch)) co rr (vll_reps ch) c (c_rep t1)
                      (fun i => lg f i c (c_rep t1)) (option_map (fun e i => vloglik ch e f i (c_rep t1)) ev)) 0 (c_ci t1))
              (fun ns => vsample mpe W ev ch (mkCtx ns (c_mask t1) (c_rep t1)) x)
        end
      else Raise
  | VProduct ch =>
      let sh := vshape ch in
      if validate [1%nat; 1%nat] (channels sh) (repetitions sh) t then
        match broadcast (features sh) t with
        | Err => Raise
        | Ok t1 => vsample mpe W ev ch t1 x
        end
      else Raise
  | VSumConv ch co K rr lg =>
      let F := features (vshape ch) in
      let n := side ch in
      if negb (Nat.eqb (n * n) F) then Raise
      else if negb (Nat.eqb (n mod K) 0) then Raise
      else if validate [1%nat; F] co rr t then
        match broadcast F t with
        | Err => Raise
        | Ok t1 =>
            pbind (choose_channels (fun f c => mix_pick mpe (channels (vshape ch)) co rr (vll_reps ch) c (c_rep t1)
                      (fun i => lg c i ((f / n) mod K)%nat ((f mod n) mod K)%nat (c_rep t1))
                      (option_map (fun e i => vloglik ch e f i (c_rep t1)) ev)) 0 (c_ci t1))
              (fun ns => vsample mpe W ev ch (mkCtx ns (c_mask t1) (c_rep t1)) x)
        end
      else Raise
  | VProdConv ch kh kw ph pw =>
      let n := side ch in
      match prod_route n (features (vshape ch)) (features (vshape v)) ph pw kh kw
              (conv_out n kh ph) (conv_out n kw pw) (channels (vshape ch)) (repetitions (vshape ch)) t with
      | Err => Raise
      | Ok t1 => vsample mpe W ev ch t1 x
      end
  end.

(** module.py 229-245 *)
Definition vsample0 (mpe : bool) (W : nat) (v : cv) (x : row) : prog row := vsample mpe W None v init_ctx x.

(** module.py 297-329 *)
Definition vsample_with_evidence (mpe : bool) (W : nat) (v : cv) (e : row) : prog row :=
  match vll_shape v with
  | Err => Raise
  | Ok _ => if forallb (fun u => Nat.ltb u W) (query (vscope v))
            then vsample mpe W (Some e) v init_ctx e else Raise
  end.

(** ** EM step of SumConv: sum_conv.py 449-521, [B] rows; [il b f i r], [ml b f o r]:
    cached input and module log-likelihoods (finite), [gr b f o r]: gradients.
    Log weights are averaged over the kernel positions (487), the expectations summed
    over rows and features (502-507), normalised (511) and written to all positions
    (516-521). *)
Definition conv_em_logits (B F n K : nat) (lg : nat -> nat -> nat -> nat -> nat -> R)
    (il ml gr : nat -> nat -> nat -> nat -> R) (o i a b r : nat) : R :=
  let lw j := bsum K (fun a => bsum K (fun b => log_softmax n (fun j => lg o j a b r) j)) / INR (K * K) in
  let ex j := ln (bsum F (fun f => bsum B (fun d => exp (lw j + ln (gr d f o r + / 10 ^ 10) + il d f j r - ml d f o r)))) in
  log_softmax n ex i.

(** ** marginalize: sum.py 441-535 (as in MargModel), product.py, sum_conv.py 543-562,
    prod_conv.py 353-373.  [fresh] are the random logits of the new SumConv modules. *)
Fixpoint vmarg (fresh : nat -> nat -> nat -> nat -> nat -> R) (S : list nat) (prune : bool) (v : cv) : result (option cv) :=
  match v with
  | VMod m => bind (marg S prune m) (fun o => Ok (option_map VMod o))
  | VSum c co rr lg =>
      if covers S (vscope c) then Ok None
      else if touches S (vscope c) then
        bind (vmarg fresh S prune c) (fun oc =>
          match oc with
          | None => Ok None
          | Some c' =>
              let idx := kidx S (vfts c) in
              if Nat.eqb (length idx) (features (vshape c'))
              then bind (mk_vsum c' co rr (fun f i o r => lg (nth f idx 0%nat) i o r)) (fun m => Ok (Some m)) else Err
          end)
      else bind (mk_vsum c co rr lg) (fun m => Ok (Some m))
  | VProduct c =>
      if covers S (vscope c) then Ok None
      else bind (if touches S (vscope c) then vmarg fresh S prune c else Ok (Some c)) (fun oc =>
        match oc with
        | None => Ok None
        | Some c' => if (prune && Nat.eqb (features (vshape c')) 1)%bool then Ok (Some c') else Ok (Some (VProduct c'))
        end)
  | VSumConv c co K rr _ =>
      if covers S (vscope c) then Ok None
      else bind (vmarg fresh S prune c) (fun oc =>
        match oc with
        | None => Ok None
        | Some c' => bind (mk_sumconv c' co K rr fresh) (fun m => Ok (Some m))
        end)
  | VProdConv c kh kw ph pw =>
      if covers S (vscope v) then Ok None
      else bind (vmarg fresh S prune c) (fun oc =>
        match oc with
        | None => Ok None
        | Some c' => bind (mk_prodconv c' kh kw ph pw) (fun m => Ok (Some m))
        end)
  end.

(** ** ConvPc *)

(** conv_pc.py 52-53: math.ceil(a / b) *)
Definition ceil_div (a b : nat) : nat := ((a + b - 1) / b)%nat.
(** conv_pc.py 52, 56, 59, 62: kernel and padding of one dimension *)
Definition fit_kernel (n target : nat) : nat := ceil_div n target.
Definition fit_padding (n target : nat) : nat := ((fit_kernel n target * target - n) / 2)%nat.

(** conv_pc.py 187-222, the [depth] pairs of a sum layer and a ProdConv, bottom-up;
    [ls d] / [lc d]: logits of the Sum / SumConv of level [d] *)
Fixpoint conv_stack (use : bool) (ch k : nat) (ls : nat -> nat -> nat -> nat -> nat -> R)
    (lc : nat -> nat -> nat -> nat -> nat -> nat -> R) (depth : nat) (cur : cv) : result cv :=
  match depth with
  | O => Ok cur
  | S d => bind (if use then mk_sumconv cur ch k 1 (lc d) else mk_vsum cur ch 1 (ls d)) (fun s =>
           bind (mk_prodconv s k k 0 0) (fun p => conv_stack use ch k ls lc d p))
  end.

(** conv_pc.py 113-224: ConvPc(leaf, input_height, input_width, channels, depth,
    kernel_size, num_repetitions, use_sum_conv); the result is [self.inputs] *)
Definition conv_pc (leaf : module) (ih iw ch depth k nr : nat) (use : bool)
    (ls : nat -> nat -> nat -> nat -> nat -> R) (lc : nat -> nat -> nat -> nat -> nat -> nat -> R)
    (lroot : nat -> nat -> nat -> nat -> R) : result cv :=
  if negb (Nat.eqb nr 1) then Err
  else if Nat.ltb depth 1 then Err
  else if Nat.ltb ch 1 then Err
  else
    let t := (k ^ depth)%nat in
    if (Nat.eqb ih 0 || Nat.eqb iw 0 || Nat.eqb t 0)%bool then Err
    else bind (mk_prodconv (VMod leaf) (fit_kernel ih t) (fit_kernel iw t) (fit_padding ih t) (fit_padding iw t)) (fun b =>
         bind (conv_stack use ch k ls lc depth b) (fun top => mk_vsum top 1 1 lroot)).

(** conv_pc.py 235-243: ConvPc's own scope and out_shape *)
Definition conv_pc_scope (leaf : module) : scope := scope_of leaf.
Definition conv_pc_shape : shape := mkShape 1 1 1.

(** conv_pc.py 257-259 on a batch [rows] with [W] columns *)
Definition has_partial (W : nat) (rows : list row) : bool :=
  (existsb (fun x => existsb (fun u => isnone (x u)) (seq 0 W)) rows
   && existsb (fun x => existsb (fun u => negb (isnone (x u))) (seq 0 W)) rows)%bool.

(** conv_pc.py 304-340: what sample(data=rows) does to the row [x] of the batch *)
Definition conv_pc_sample (mpe : bool) (W : nat) (rows : list row) (v : cv) (x : row) : prog row :=
  if has_partial W rows then vsample_with_evidence mpe W v x else vsample0 mpe W v x.
