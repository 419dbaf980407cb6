(** Model of RatSPN.marginalize (spflow/zoo/rat/rat_spn.py 353-370): the request is
    passed to the root layer, Sum.marginalize (modules/sums/sum.py 436-521) or
    RepetitionMixingLayer, which inherits it (repetition_mixing_layer.py 14), and from
    there down the stack of layers of StackModel.v.

    All layers of the stack report the scope of the leaf modules.  Left out: layers a
    RatSPN does not contain and the leaves ([MDeeper]); no RatSPN request gets there. *)
From Coq Require Import List Arith Bool.
From Verif Require Import Base ScopeModel CircuitModel MargModel LayerModel EmModel FactorModel StackModel.
Import ListNotations.
Local Open Scope R_scope.

(** the outcome: an exception, None, a module (its layers, top first) *)
Inductive mres := MRaise | MGone | MKeep (ls : list layer) | MDeeper.

(** Sum(inputs=i, weights=w), sum.py 46-169 and 209-222, on an input of declared shape [s] *)
Definition new_sum (s : shape) (wa : warg) : result layer :=
  let w := norm_warg wa in
  if Nat.ltb (wO w) 1 then Err
  else if negb (weights_shape_ok w (features s) (channels s) (wO w) (wR w)) then Err
  else if negb (weights_pos w) then Err
  else if negb (weights_sum1 w) then Err
  else Ok (mkLay (OSum (wO w) (wR w) (fun f i o r => ln (wv w f i o r))) s (mkShape (features s) (wO w) (wR w))).

(** self.weights: sum.py 199-207 with sum_dim = 1, and with sum_dim = 2 for the mixing
    layer (repetition_mixing_layer.py 42, 88-93: a 3D tensor) *)
Definition layer_weights (l : layer) : option warg :=
  let s := l_in l in
  match l_op l with
  | OSum co nr lg => Some (W4 (mkW (features s) (channels s) co nr (fun f i o r => softmax (channels s) (fun j => lg f j o r) i)))
  | OMix co nr lg => Some (W3 (features s) co nr (fun f c r => softmax nr (lg f c) r))
  | _ => None
  end.

(** sum.py 436-521; products of a split: base_product.py 193-217 raises
    NotImplementedError for every request.  The masking of the weights after a partial
    marginalisation (473-512) is left out: it is not reached, see above. *)
Fixpoint marg_layers (S : list nat) (sc : scope) (ls : list layer) : mres :=
  match ls with
  | [] => MDeeper
  | l :: below =>
      match l_op l with
      | OProd _ _ _ => MRaise
      | OSum _ _ _ | OMix _ _ _ =>
          if covers S sc then MGone
          else if touches S sc
               then match marg_layers S sc below with MRaise => MRaise | MGone => MGone | _ => MDeeper end
               else match layer_weights l with
                    | Some w => match new_sum (l_in l) w with Ok l' => MKeep (l' :: below) | Err => MRaise end
                    | None => MDeeper
                    end
      | _ => MDeeper
      end
  end.
Definition rat_marg (S : list nat) (k : stack) : mres := marg_layers S (scope_of (k_leaf k)) (rev (k_layers k)).
(** the module returned *)
Definition rat_marg_result (S : list nat) (k : stack) : option stack :=
  match rat_marg S k with MKeep ls => Some (mkStack (k_leaf k) (k_fact k) (rev ls)) | _ => None end.
