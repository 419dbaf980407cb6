(** Model of spflow/zoo/pic/tensorized/qpc.py (TensorizedQPC) with the evaluation functions of
    spflow/zoo/pic/tensorized/utils.py.

    One data row without missing entries is evaluated; devices, dtypes and chunk memory are not
    modelled.  The neural networks InputNet and InnerNet are arbitrary functions of a
    quadrature point up to their last layer. *)
From Coq Require Import List Arith Bool Reals ZArith.
From Verif Require Import Base ScopeModel RegionModel CircuitModel LayerModel PicModel.
Import ListNotations.
Local Open Scope R_scope.

(** torch.chunk(n, dim=0) of a sequence: pieces of ceil(len / n) elements *)
Fixpoint pieces {A} (fuel size : nat) (l : list A) : list (list A) :=
  match fuel with
  | O => []
  | S m => if Nat.leb (length l) size then [l] else firstn size l :: pieces m size (skipn size l)
  end.
Definition chunk {A} (n : nat) (l : list A) : list (list A) := pieces (S (length l)) ((length l + n - 1) / n) l.

(** 71-78 *)
Record group_args := mkArgs { num_dim : nat; num_funcs : nat; perm_dim : list nat; norm_dim : list nat }.
Inductive kind := Tucker | Cp.
(** 789-810 *)
Definition layer_args (k : kind) (folds arity out : nat) : group_args :=
  match k with
  | Cp => if Nat.eqb out 1 then mkArgs 1 (folds * arity) [1] [1] else mkArgs 2 (folds * arity) [2; 1] [1]
  | Tucker => if Nat.eqb out 1 then mkArgs 2 folds [1; 2] [1; 2] else mkArgs 3 folds [3; 2; 1] [1; 2]
  end%nat.

(** ** InnerNet.  [L f zs]: output of the network (after Softplus) for function [f] at the
    point [zs] of the meshgrid *)
Section InnerNet.
Variable q : rule.
Variable eps : R. (* 229 *)
Variable n_chunks : nat.
Variable g : group_args.
Variable L : nat -> list R -> R.
Let K := length (pts q).

(** 276-282: the network is evaluated chunk by chunk on the rows of the meshgrid *)
Definition logits (f : nat) : list R := map (fun v => v + eps) (concat (map (map (L f)) (chunk n_chunks (grid q (num_dim g))))).
(** view(-1, K, ..., K), 289 *)
Definition ravel (idx : list nat) : nat := fold_left (fun a i => a * K + i)%nat idx 0%nat.
Fixpoint pos (d : nat) (l : list nat) : nat := match l with [] => 0%nat | x :: r => if Nat.eqb x d then 0%nat else S (pos d r) end.
(** permute(perm): the new axis j (from 1) is the old axis perm_j *)
Definition unperm (idx : list nat) : list nat := map (fun d => nth (pos d (perm_dim g)) idx 0%nat) (seq 1 (num_dim g)).
Definition logit (f : nat) (idx : list nat) : R := nth (ravel (unperm idx)) (logits f) 0.
(** 291-294: product of the quadrature weights along the axes norm_dim *)
Definition w_mesh (idx : list nat) : R := fold_right (fun d acc => nth (nth (d - 1) idx 0%nat) (wts q) 0 * acc) 1 (norm_dim g).
Fixpoint set_axes (ds : list nat) (vals idx : list nat) : list nat :=
  match ds, vals with
  | d :: ds', v :: vals' => set_axes ds' vals' (firstn (d - 1) idx ++ v :: skipn d idx)
  | _, _ => idx
  end.
(** 296: sum over the axes norm_dim *)
Definition denom (f : nat) (idx : list nat) : R :=
  lsumR (map (fun vals => let i := set_axes (norm_dim g) vals idx in logit f i * w_mesh i) (cartesian (repeat (seq 0 K) (length (norm_dim g))))).
(** 297 *)
Definition param (f : nat) (idx : list nat) : R := logit f idx / denom f idx * w_mesh idx.
End InnerNet.

(** ** Input units *)
Inductive leaf_type := LNormal | LBernoulli | LCategorical (C : nat).
Definition softplus (a : R) : R := ln (1 + exp a).
(** 375-377 *)
Definition num_param (t : leaf_type) : nat := match t with LNormal => 2 | LBernoulli => 1 | LCategorical C => C end.
(** 170-193: [I c z]: output channel c of the network at the point z; with F-sharing all
    variables read the same channels *)
Definition leaf_param (q : rule) (n_chunks : nat) (t : leaf_type) (fshare : bool) (I : nat -> R -> R) (v k p : nat) : R :=
  nth k (concat (map (map (I (if fshare then p else v * num_param t + p)%nat)) (chunk n_chunks (pts q)))) 0.
(** 441-486 for one value; the categorical index: to(torch.long).clamp(0, C - 1) *)
Definition leaf_ll (t : leaf_type) (par : nat -> R) (x : R) : R :=
  match t with
  | LNormal => let scale := softplus (par 1%nat) + / 10 ^ 6 in
               - ((x - par 0%nat) ^ 2) / (2 * scale ^ 2) - ln scale - ln (sqrt (2 * PI))
  | LBernoulli => x * par 0%nat - softplus (par 0%nat) (* - binary_cross_entropy_with_logits *)
  | LCategorical C => log_softmax C par (Nat.min (C - 1) (Z.to_nat (Int_part x)))
  end.

(** ** Folded layers *)
Record part_layer := mkPart { p_kind : kind; p_folds : nat; p_arity : nat; p_out : nat; p_mask : option (list (list bool)) }.
Record mix_layer := mkMix { m_folds : nat; m_arity : nat; m_units : nat; m_mask : option (list (list bool)) }.
Inductive op := Partition (i : nat) (l : part_layer) | Mixing (i : nat) (l : mix_layer).
(** 302-306 with the entry of eval_plan *)
Record step := mkStep { s_pad : bool; s_in : list nat; s_idx : list (list nat); s_op : op }.

Inductive layer_cls := ClsAuto | ClsTucker | ClsCp.
(** 623-657: region_id_fold, fold_counts, the plan so far, numbers of partition and mixing
    layers *)
Record bstate := mkB { b_fold : list (region * (nat * nat)); b_counts : list nat; b_steps : list step; b_np : nat; b_nm : nat }.
Fixpoint find_fold (r : region) (l : list (region * (nat * nat))) : result (nat * nat) :=
  match l with [] => Err | (t, v) :: rest => if same r t then Ok v else find_fold r rest end.

(** 681-686 *)
Fixpoint base (counts : list nat) (ids : list nat) (lid : nat) : nat :=
  match ids with [] => 0%nat | i :: rest => if Nat.eqb i lid then 0%nat else (nth i counts 0%nat + base counts rest lid)%nat end.
Definition pad_row (n fill : nat) (row : list nat) : list nat := row ++ repeat fill (n - length row).
Definition mask_of (pad : bool) (total : nat) (rows : list (list nat)) : option (list (list bool)) :=
  if pad then Some (map (map (fun i => Nat.ltb i total)) rows) else None.
(** 708-715 *)
Definition choose (c : layer_cls) (arity : nat) (pad : bool) : kind :=
  let strict := (Nat.eqb arity 2 && negb pad)%bool in
  match c with
  | ClsTucker => if strict then Tucker else if strict then Tucker else Cp
  | ClsCp => Cp
  | ClsAuto => if strict then Tucker else Cp
  end.
Fixpoint index_from {A} (n : nat) (l : list A) : list (nat * A) := match l with [] => [] | a :: r => (n, a) :: index_from (S n) r end.

(** 662-784: one height.  Simplified: heights are recomputed from the region *)
Definition build_height (po : list region) (K C max_h : nat) (cls : layer_cls) (h : nat) (st : bstate) : result bstate :=
  let lregions := filter (fun r => Nat.eqb (rdepth r) h) po in
  match lregions with
  | [] => Ok st
  | _ =>
      let lparts := flat_map (fun r => map (pair r) (r_children r)) lregions in
      bind (mapR (fun rp => mapR (fun c => find_fold c (b_fold st)) (snd rp)) lparts) (fun found =>
      let ids := sortu (map snd (concat found)) in
      let total := list_sum (map (fun i => nth i (b_counts st) 0%nat) ids) in
      let arity := list_max (map (fun rp => length (snd rp)) lparts) in
      let pad := existsb (fun rp => Nat.ltb (length (snd rp)) arity) lparts in
      let rows := map (fun fs => pad_row arity total (map (fun fl => (base (b_counts st) ids (snd fl) + fst fl)%nat) fs)) found in
      let folds := length lparts in
      let out := if Nat.ltb h max_h then K else C in
      let pl := mkPart (choose cls arity pad) folds arity out (mask_of pad total rows) in
      let s1 := mkStep pad ids rows (Partition (b_np st) pl) in
      let o1 := length (b_counts st) in
      let counts1 := b_counts st ++ [folds] in
      let numbered := index_from 0 lparts in
      let fold1 := fold_left (fun l irp => if Nat.eqb (length (r_children (fst (snd irp)))) 1 then (fst (snd irp), (fst irp, o1)) :: l else l) numbered (b_fold st) in
      let non_unary := filter (fun r => Nat.ltb 1 (length (r_children r))) lregions in
      match non_unary with
      | [] => Ok (mkB fold1 counts1 (b_steps st ++ [s1]) (S (b_np st)) (b_nm st))
      | _ =>
          let marity := list_max (map (fun r => length (r_children r)) non_unary) in
          let mpad := existsb (fun r => Nat.ltb (length (r_children r)) marity) non_unary in
          let idxs r := map fst (filter (fun irp => same r (fst (snd irp))) numbered) in
          if existsb (fun r => negb (Nat.eqb (length (idxs r)) (length (r_children r)))) non_unary then Err
          else
            let mrows := map (fun r => pad_row marity folds (idxs r)) non_unary in
            let ml := mkMix (length non_unary) marity out (mask_of mpad folds mrows) in
            let s2 := mkStep mpad [o1] mrows (Mixing (b_nm st) ml) in
            let fold2 := fold_left (fun l ir => (snd ir, (fst ir, S o1)) :: l) (index_from 0 non_unary) fold1 in
            Ok (mkB fold2 (counts1 ++ [length non_unary]) (b_steps st ++ [s1; s2]) (S (b_np st)) (S (b_nm st)))
      end)
  end.
Fixpoint build_loop (po : list region) (K C max_h : nat) (cls : layer_cls) (hs : list nat) (st : bstate) : result bstate :=
  match hs with [] => Ok st | h :: rest => bind (build_height po K C max_h cls h st) (build_loop po K C max_h cls rest) end.

(** 359-366: the leaf regions by variable; sorted() is stable *)
Fixpoint insert_region (r : region) (l : list region) : list region :=
  match l with
  | [] => [r]
  | t :: rest => if Nat.leb (hd 0%nat (query (r_scope r))) (hd 0%nat (query (r_scope t))) then r :: l else t :: insert_region r rest
  end.
Definition sort_regions (l : list region) : list region := fold_right insert_region [] l.
Definition leaf_regions (root : region) : list region := filter (fun r => match r_children r with [] => true | _ => false end) (post_order root).
Definition leaf_order (root : region) : list region := sort_regions (leaf_regions root).

(** 328-408: the plan of a circuit; [C]: config.num_classes *)
Definition build (root : region) (K C : nat) (cls : layer_cls) : result (list step) :=
  let lr := leaf_regions root in
  if existsb (fun r => negb (Nat.eqb (length (query (r_scope r))) 1)) lr then Err
  else
    let leaves := sort_regions lr in
    let po := post_order root in
    let max_h := list_max (map rdepth po) in
    let st0 := mkB (rev (map (fun ir => (snd ir, (fst ir, 0%nat))) (index_from 0 leaves))) [length leaves] [] 0 0 in
    bind (build_loop po K C max_h cls (seq 1 max_h) st0) (fun st => Ok (b_steps st)).

(** ** Evaluation of one row: a layer output is its number of units and its folds *)
Definition fold := nat -> lval.
Definition masked (m : option (list (list bool))) (f h : nat) : bool := match m with None => true | Some rows => nth h (nth f rows []) false end.
(** utils.py 65-83.  Simplified: log_func_exp subtracts and adds back the maximum, which
    cancels in exact arithmetic (the arguments are finite for all leaf types) *)
Definition eval_tucker (K : nat) (W : nat -> nat -> nat -> nat -> R) (ins : list (list fold)) : list fold :=
  map (fun frow o => lse K (fun i => lse K (fun j =>
         ladd (lfrom (W (fst frow) i j o)) (ladd (nth 0 (snd frow) (fun _ => NInf) i) (nth 1 (snd frow) (fun _ => NInf) j))))) (index_from 0 ins).
(** utils.py 86-109 *)
Definition eval_cp (K : nat) (W : nat -> nat -> nat -> nat -> R) (m : option (list (list bool))) (ins : list (list fold)) : list fold :=
  map (fun frow o => ladds (length (snd frow)) (fun h =>
         if masked m (fst frow) h then lse K (fun i => ladd (lfrom (W (fst frow) h i o)) (nth h (snd frow) (fun _ => NInf) i)) else Fin 0)) (index_from 0 ins).
(** 579-586: softmax over the arity; masked entries get logit -inf *)
Definition masked_softmax (m : option (list (list bool))) (arity : nat) (lg : nat -> nat -> nat -> R) (f h k : nat) : R :=
  (if masked m f h then exp (lg f h k) else 0) / bsum arity (fun j => if masked m f j then exp (lg f j k) else 0).
(** utils.py 112-123 *)
Definition eval_mixing (w : nat -> nat -> nat -> R) (m : option (list (list bool))) (ins : list (list fold)) : list fold :=
  map (fun frow k => lse (length (snd frow)) (fun h =>
         ladd (lfrom (w (fst frow) h k)) (if masked m (fst frow) h then nth h (snd frow) (fun _ => NInf) k else NInf))) (index_from 0 ins).

Section Eval.
Variable q : rule.
Variable eps : R.
Variable n_chunks : nat.
(** [L i]: network of partition layer [i]; [mlog i]: logits of mixing layer [i] *)
Variable L : nat -> nat -> list R -> R.
Variable mlog : nat -> nat -> nat -> nat -> R.
Let K := length (pts q).

(** 503-517: Tucker params viewed as (F, K, K, O), CP params as (F, H, K, O) *)
Definition tucker_param (i : nat) (l : part_layer) (f a b o : nat) : R :=
  param q eps n_chunks (layer_args Tucker (p_folds l) (p_arity l) (p_out l)) (L i) f (if Nat.eqb (p_out l) 1 then [a; b] else [a; b; o]).
Definition cp_param (i : nat) (l : part_layer) (f h a o : nat) : R :=
  param q eps n_chunks (layer_args Cp (p_folds l) (p_arity l) (p_out l)) (L i) (f * p_arity l + h) (if Nat.eqb (p_out l) 1 then [a] else [a; o]).

(** 519-539 *)
Definition eval_step (outs : list (nat * list fold)) (s : step) : result (list (nat * list fold)) :=
  bind (mapR (fun i => match nth_error outs i with Some o => Ok o | None => Err end) (s_in s)) (fun inputs =>
  match inputs with
  | [] => Err
  | (units, _) :: _ =>
      if negb (forallb (fun o => Nat.eqb (fst o) units) inputs) then Err
      else
        let cat := flat_map snd inputs ++ (if s_pad s then [fun _ => Fin 0] else []) in
        bind (mapR (mapR (fun i => match nth_error cat i with Some x => Ok x | None => Err end)) (s_idx s)) (fun ins =>
        match s_op s with
        | Partition i l =>
            if negb (Nat.eqb units K) then Err
            else match p_kind l with
                 | Tucker => if negb (Nat.eqb (p_arity l) 2) then Err else Ok (outs ++ [(p_out l, eval_tucker K (tucker_param i l) ins)])
                 | Cp => Ok (outs ++ [(p_out l, eval_cp K (cp_param i l) (p_mask l) ins)])
                 end
        | Mixing i l =>
            if negb (Nat.eqb units (m_units l)) then Err
            else Ok (outs ++ [(m_units l, eval_mixing (masked_softmax (m_mask l) (m_arity l) (mlog i)) (m_mask l) ins)])
        end)
  end).
Fixpoint eval_steps (outs : list (nat * list fold)) (ss : list step) : result (list (nat * list fold)) :=
  match ss with [] => Ok outs | s :: rest => bind (eval_step outs s) (fun o => eval_steps o rest) end.

(** 488-552; with num_classes <> 1 every path ends in an exception.  [lf v k x]: the
    log-likelihood of input unit k of leaf v *)
Definition log_likelihood (root : region) (C : nat) (cls : layer_cls) (lf : nat -> nat -> R -> R) (x : nat -> R) : result lval :=
  bind (build root K C cls) (fun ss =>
  let x0 := map (fun vr k => Fin (lf (fst vr) k (x (hd 0%nat (query (r_scope (snd vr))))))) (index_from 0 (leaf_order root)) in
  bind (eval_steps [(K, x0)] ss) (fun outs =>
  match last outs (0%nat, []) with
  | (u, [o]) => if negb (Nat.eqb u C) then Err else if negb (Nat.eqb C 1) then Err else Ok (o 0%nat)
  | _ => Err
  end)).
End Eval.
