(** Model of Chow-Liu tree leaves: spflow/modules/leaves/cltree.py.
    Idealisation: floats are reals, log values may be -inf; a cell holds an integer
    value or NaN (validation is exact, not up to torch.allclose's tolerance).
    Modes raising for return_leaf_params / differentiable sampling are left out. *)
From Coq Require Import List Arith ZArith Bool Reals.
From Verif Require Import Base ScopeModel CircuitModel LeafModel SampleModel CtxModel.
Import ListNotations.
Local Open Scope R_scope.

(** ** Tree orders, cltree.py 50-78 *)
Definition par (parents : list Z) (i : nat) : Z := nth i parents (-1)%Z.
Definition roots (parents : list Z) : list nat :=
  filter (fun i => Z.eqb (par parents i) (-1)) (seq 0 (length parents)).
(** 60-66: the children of [v], in the order they are appended *)
Definition children (parents : list Z) (v : nat) : list nat :=
  filter (fun i => Z.eqb (par parents i) (Z.of_nat v)) (seq 0 (length parents)).
Definition parent_range (parents : list Z) : bool :=
  forallb (fun p => Z.eqb p (-1) || (Z.leb 0 p && Z.ltb p (Z.of_nat (length parents)))) parents.
(** sorted() *)
Fixpoint ninsert (x : nat) (l : list nat) : list nat :=
  match l with [] => [x] | y :: r => if Nat.leb x y then x :: l else y :: ninsert x r end.
Definition nsort (l : list nat) : list nat := fold_right ninsert [] l.
(** 69-75: the while loop; the head of the list is the top of the stack, children
    are pushed in decreasing order.  [None]: out of fuel (never happens). *)
Fixpoint dfs (fuel : nat) (parents : list Z) (pre stack : list nat) : option (list nat) :=
  match stack with
  | [] => Some pre
  | node :: rest =>
      match fuel with
      | O => None
      | S k => dfs k parents (pre ++ [node])
                 (fold_left (fun st ch => ch :: st) (rev (nsort (children parents node))) rest)
      end
  end.
(** the pre-order; the post-order is its reverse (77) *)
Definition compute_orders (parents : list Z) : result (list nat) :=
  match parents with
  | [] => Ok []
  | _ =>
      match roots parents with
      | [root] => if parent_range parents
                  then match dfs (length parents) parents [] [root] with Some pre => Ok pre | None => Err end
                  else Err
      | _ => Err
      end
  end.

(** ** Leaves.  [log_cpt i c r xi xp] *)
Record cltree := mkClt {
  t_query : list nat; t_C : nat; t_R : nat; t_K : nat; t_alpha : R;
  t_parents : list Z; t_pre : list nat;
  t_cpt : nat -> nat -> nat -> nat -> nat -> lval }.
Definition t_F (t : cltree) : nat := length (t_query t).

(** 139-206 with a parent vector and CPTs of the right shape *)
Definition mk_cltree (query : list nat) (C P K : nat) (alpha : R) (parents : list Z)
  (cpt : nat -> nat -> nat -> nat -> nat -> lval) : result cltree :=
  if (K <? 2)%nat then Err else
  if rle alpha 0 then Err else
  if (length query <? 2)%nat then Err else
  if negb (Nat.eqb (length parents) (length query)) then Err else
  bind (compute_orders parents) (fun pre => Ok (mkClt query C P K alpha parents pre cpt)).

(** 230-241 *)
Definition has_structure (parents : list Z) : bool :=
  Nat.eqb (length (roots parents)) 1 &&
  forallb (fun i => let p := par parents i in
     Z.eqb p (-1) || (Z.leb 0 p && Z.ltb p (Z.of_nat (length parents)) && negb (Z.eqb p (Z.of_nat i))))
    (seq 0 (length parents)).
(** parents.index(-1) *)
Definition root_of (parents : list Z) : nat := hd 0%nat (roots parents).

(** Values of one scoped row: [None] is NaN. *)
Definition cells := nat -> option R.
(** 35-47 on one row *)
Definition cell_ok (K : nat) (o : option R) : bool :=
  match o with None => true | Some a => match asnat a with Some k => Nat.ltb k K | None => false end end.
Definition row_ok (F K : nat) (x : cells) : bool := forallb (fun i => cell_ok K (x i)) (seq 0 F).
Definition obs (x : cells) (i : nat) : option nat := match x i with None => None | Some a => asnat a end.
Definition is_complete (F : nat) (x : cells) : bool :=
  forallb (fun i => match x i with Some _ => true | None => false end) (seq 0 F).

Section Entry.
  (** one (channel, repetition) entry *)
  Variables (K : nat) (parents : list Z) (cpt : nat -> nat -> nat -> lval).

  (** 342-353: complete rows *)
  Definition fast_ll (F : nat) (x : nat -> nat) : lval :=
    ladds F (fun i => let p := par parents i in
      if Z.eqb p (-1) then cpt i (x i) 0%nat else cpt i (x i) (x (Z.to_nat p))).

  (** child_sum and backptr of 554-577 (log_likelihood 370-386 has only child_sum) *)
  Definition bpstate := ((nat -> nat -> lval) * (nat -> nat -> nat))%type.
  Definition bp0 : bpstate := (fun _ _ => Fin 0, fun _ _ => 0%nat).
  (** 559-577 (372-386 for [mpe = false]) *)
  Definition bp_step (mpe : bool) (ob : nat -> option nat) (s : bpstate) (i : nat) : bpstate :=
    let '(cs, bk) := s in
    let p := par parents i in
    if Z.eqb p (-1) then s
    else
      let score xi xp := ladd (cpt i xi xp) (cs i xi) in
      let msg xp := match ob i with
                    | Some xi => score xi xp
                    | None => if mpe then score (argmax K (fun xi => score xi xp)) xp
                              else lse K (fun xi => score xi xp)
                    end in
      let back xp := match ob i with
                     | Some xi => xi
                     | None => if mpe then argmax K (fun xi => score xi xp) else bk i xp
                     end in
      (fun j k => if Nat.eqb j (Z.to_nat p) then ladd (cs j k) (msg k) else cs j k,
       fun j k => if Nat.eqb j i then back k else bk j k).
  Definition bp (mpe : bool) (ob : nat -> option nat) (post : list nat) : bpstate := fold_left (bp_step mpe ob) post bp0.

  (** 388-394 *)
  Definition slow_ll (pre : list nat) (ob : nat -> option nat) : lval :=
    let cs := fst (bp false ob (rev pre)) in
    let root := root_of parents in
    let score k := ladd (cpt root k 0%nat) (cs root k) in
    match ob root with Some xr => score xr | None => lse K score end.

  Definition fupd (x : nat -> nat) (i k : nat) : nat -> nat := fun j => if Nat.eqb j i then k else x j.

  (** 592-604: the loop over pre_order *)
  Fixpoint assign (mpe : bool) (ob : nat -> option nat) (s : bpstate) (root : nat) (pre : list nat) (a : nat -> nat)
    : prog (nat -> nat) :=
    match pre with
    | [] => Ret a
    | i :: rest =>
        if Nat.eqb i root then assign mpe ob s root rest a
        else
          let xp := a (Z.to_nat (par parents i)) in
          match ob i with
          | Some v => assign mpe ob s root rest (fupd a i v)
          | None =>
              if mpe then assign mpe ob s root rest (fupd a i (snd s i xp))
              else pbind (sample_logits false K (fun k => ladd (cpt i k xp) (fst s i k)))
                     (fun k => assign mpe ob s root rest (fupd a i k))
          end
    end.
  (** 550-604; [junk] is the uninitialised tensor of 589 *)
  Definition clt_assign (mpe : bool) (junk : nat -> nat) (pre : list nat) (ob : nat -> option nat) : prog (nat -> nat) :=
    let s := bp mpe ob (rev pre) in
    let root := root_of parents in
    let score k := ladd (cpt root k 0%nat) (fst s root k) in
    pbind (match ob root with Some xr => Ret xr | None => sample_logits mpe K score end)
      (fun xr => assign mpe ob s root pre (fupd junk root xr)).
End Entry.

Definition entry (t : cltree) (c r : nat) : nat -> nat -> nat -> lval := fun i xi xp => t_cpt t i c r xi xp.

(** 322-398 on a batch of scoped rows: per row, feature, channel, repetition.  The
    fast path is taken iff no row of the batch has a NaN (341). *)
Definition clt_loglik (t : cltree) (rows : list cells) : result (list (nat -> nat -> nat -> lval)) :=
  if negb (forallb (row_ok (t_F t) (t_K t)) rows) then Err else
  if negb (has_structure (t_parents t)) then Err else
  let fast := forallb (is_complete (t_F t)) rows in
  Ok (map (fun x => fun f c r =>
        if Nat.eqb f 0 then
          (if fast then fast_ll (t_parents t) (entry t c r) (t_F t) (fun i => match obs x i with Some k => k | None => 0%nat end)
           else slow_ll (t_K t) (t_parents t) (entry t c r) (t_pre t) (obs x))
        else Fin 0) rows).

(** 489-611 for one row that has a requested NaN cell; [ch] is the channel index of
    every feature, [mask] the requested cells *)
Definition clt_sample (mpe : bool) (junk : nat -> nat) (t : cltree) (ch : nat -> nat) (rep : nat)
  (mask : nat -> bool) (x : cells) : prog cells :=
  if negb (has_structure (t_parents t)) then Raise else
  if negb (forallb (fun f => Nat.eqb (ch f) (ch 0%nat)) (seq 0 (t_F t))) then Raise else
  if negb (row_ok (t_F t) (t_K t) x) then Raise else
  pbind (clt_assign (t_K t) (t_parents t) (entry t (ch 0%nat) rep) mpe junk (t_pre t) (obs x))
    (fun a => Ret (fun j => match x j with
                            | None => if mask j then Some (INR (a j)) else None
                            | Some v => Some v
                            end)).

(** ** Estimation *)
(** 457-468 and 470-484: one entry of the CPT from weighted complete rows
    [d] = (weight, values); [alpha] is the smoothing *)
Definition wcount (d : list (R * (nat -> nat))) (sel : (nat -> nat) -> bool) : R :=
  lsumR (map (fun wx => fst wx * (if sel (snd wx) then 1 else 0)) d).
Definition clamp12 (p : R) : R := Rmax p (/ 10 ^ 12).
Definition mle_cpt (K : nat) (alpha : R) (parents : list Z) (d : list (R * (nat -> nat))) (i xi xp : nat) : lval :=
  let p := par parents i in
  let counts k := alpha + wcount d (fun x => Nat.eqb (x i) k && (Z.eqb p (-1) || Nat.eqb (x (Z.to_nat p)) xp)) in
  lfrom (clamp12 (counts xi / clamp12 (bsum K counts))).

(** 251-294 *)
Definition mi_matrix (K : nat) (alpha : R) (d : list (R * (nat -> nat))) (i j : nat) : R :=
  let N := INR (length d) in
  let s := N / clamp12 (lsumR (map fst d)) in
  let w sel := s * wcount d sel in
  let ci f k := alpha + w (fun x => Nat.eqb (x f) k) in
  let lpi f k := ln (clamp12 (ci f k / clamp12 (bsum K (ci f)))) in
  let cij u v a b := alpha + w (fun x => Nat.eqb (x u) a && Nat.eqb (x v) b) in
  let mi u v := bsum K (fun a => bsum K (fun b =>
     let p := cij u v a b / clamp12 (bsum K (fun a' => bsum K (fun b' => cij u v a' b'))) in
     p * (ln (clamp12 p) - lpi u a - lpi v b))) in
  if Nat.eqb i j then 0 else if Nat.ltb i j then mi i j else mi j i.

(** 81-126: Prim's algorithm; candidate weights are -inf ([NInf]) for nodes in the tree *)
Record prim_state := mkPrim { pr_in : nat -> bool; pr_w : nat -> lval; pr_p : nat -> Z; pr_par : nat -> Z }.
Definition setf {A} (f : nat -> A) (i : nat) (a : A) : nat -> A := fun j => if Nat.eqb j i then a else f j.
Definition prim_init (w : nat -> nat -> R) (root : nat) : prim_state :=
  mkPrim (fun j => Nat.eqb j root) (setf (fun j => Fin (w root j)) root NInf) (setf (fun _ => Z.of_nat root) root (-1)%Z) (fun _ => (-1)%Z).
Definition prim_step (F : nat) (w : nat -> nat -> R) (s : prim_state) : result prim_state :=
  let cand j := if pr_in s j then NInf else pr_w s j in
  let v := argmax F cand in
  match cand v with
  | NInf => Err
  | Fin _ =>
      let inn := setf (pr_in s) v true in
      let improved j := negb (inn j) && llt (pr_w s j) (Fin (w v j)) in
      Ok (mkPrim inn (fun j => if improved j then Fin (w v j) else pr_w s j)
            (fun j => if improved j then Z.of_nat v else pr_p s j) (setf (pr_par s) v (pr_p s v)))
  end.
Fixpoint prim_loop (n F : nat) (w : nat -> nat -> R) (s : prim_state) : result prim_state :=
  match n with O => Ok s | S k => bind (prim_step F w s) (prim_loop k F w) end.
Definition prim (F : nat) (w : nat -> nat -> R) (root : nat) : result (list Z) :=
  if Nat.eqb F 0 then Ok [] else
  if negb (Nat.ltb root F) then Err else
  bind (prim_loop (F - 1) F w (prim_init w root)) (fun s => Ok (map (setf (pr_par s) root (-1)%Z) (seq 0 F))).

(** 1011-1037 of leaf.py: columns of a table with [n] columns *)
Definition resolve_columns (query : list nat) (n : nat) : result (list nat) :=
  if forallb (fun v => Nat.ltb v n) query then Ok query
  else if Nat.eqb n (length query) then Ok (seq 0 n) else Err.
Definition pick_columns (cols : list nat) (x : nat -> nat) : nat -> nat := fun i => x (nth i cols 0%nat).
(** 296-319: fit_structure on a table with [n] columns *)
Definition fit_structure (query : list nat) (K : nat) (alpha : R) (n : nat) (d : list (R * (nat -> nat))) : result (list Z) :=
  bind (resolve_columns query n) (fun cols =>
    let d' := map (fun wx => (fst wx, pick_columns cols (snd wx))) d in
    prim (length query) (mi_matrix K alpha d') 0).
(** 427-487 on complete rows when no structure has been learnt: the rows are scoped
    first (436) and handed to fit_structure (442), which scopes them again *)
Definition mle_structure (query : list nat) (K : nat) (alpha : R) (n : nat) (d : list (R * (nat -> nat))) : result (list Z) :=
  bind (resolve_columns query n) (fun cols =>
    fit_structure query K alpha (length query) (map (fun wx => (fst wx, pick_columns cols (snd wx))) d)).

(** leaf.py 1080-1119 applied to a CLTree: the constructor call lacks the required
    argument K (TypeError) *)
Definition clt_marginalize (t : cltree) (marg : list nat) : result (option cltree) :=
  if forallb (fun q => existsb (Nat.eqb q) marg) (t_query t) then Ok None else Err.

(** sum.py 311-376 above a CLTree: without cached evidence every feature draws its
    input channel independently; [lg f] are the logits of feature [f] (for output
    channel and repetition 0) *)
Fixpoint pick_channels (mpe : bool) (F C : nat) (lg : nat -> nat -> R) : prog (nat -> nat) :=
  match F with
  | O => Ret (fun _ => 0%nat)
  | S f => pbind (pick_channels mpe f C lg) (fun ch =>
             pbind (sample_logits mpe C (fun i => Fin (lg f i))) (fun k => Ret (fupd ch f k)))
  end.
Definition sum_clt_sample (mpe : bool) (junk : nat -> nat) (t : cltree) (lg : nat -> nat -> R) (mask : nat -> bool) (x : cells) : prog cells :=
  pbind (pick_channels mpe (t_F t) (t_C t) lg) (fun ch => clt_sample mpe junk t ch 0 mask x).
