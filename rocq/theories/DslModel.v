(** Model of spflow/dsl.py: the expression values, Python's dispatch of [*] and [+]
    on them (inside and outside a [dsl()] context), [build], and the [dsl()]
    context manager's patching of Module's operators.
    Not modelled: devices and dtypes (239-243, 269-273, 285), non-finite weights
    (140, 288, 294: weights are reals), [term] applied to something other than a
    Module. *)
From Coq Require Import List Arith Bool Lia.
From Verif Require Import Base ScopeModel CircuitModel SignedModel CnetModel.
Import ListNotations.
Local Open Scope R_scope.

(** Term 78-82, ProductExpr 103-107, WeightedExpr 130-135, SumExpr 172-179 *)
Inductive expr :=
| ETerm (m : module)
| EProd (factors : list expr)
| EWtd (w : R) (e : expr)
| ESum (terms : list (R * expr)).

(** The Python objects the operators are applied to: a number, a Module, an expression. *)
Inductive pyval := VNum (a : R) | VMod (m : module) | VExpr (e : expr).

(** 52-58 [as_expr]: WeightedExpr has a [build] method, so it is a Buildable too. *)
Definition as_expr (v : pyval) : result expr :=
  match v with VNum _ => Err | VMod m => Ok (ETerm m) | VExpr e => Ok e end.

(** WeightedExpr(weight, expr): 137-143 *)
Definition mk_weighted (w : R) (e : expr) : result pyval :=
  if rleb w 0 then Err else Ok (VExpr (EWtd w e)).

(** SumExpr(terms): 181-186 *)
Definition mk_sumexpr (ts : list (R * expr)) : result pyval :=
  if Nat.ltb (length ts) 2 then Err
  else if existsb (fun t => rleb (fst t) 0) ts then Err
  else Ok (VExpr (ESum ts)).

(** 66-68 [w(weight, value)] (WeightedExpr rejects a non-numeric weight: 138) *)
Definition w_helper (wt v : pyval) : result pyval :=
  match wt with
  | VNum a => bind (as_expr v) (fun e => mk_weighted a e)
  | _ => Err
  end.

(** [a * b].  [on] = inside a dsl() context (Module.__mul__/__rmul__ patched, 326-340);
    a class without __mul__ and an operand without a usable __rmul__ give TypeError. *)
Definition pymul (on : bool) (a b : pyval) : result pyval :=
  match a with
  | VNum x =>
      match b with
      | VNum y => Ok (VNum (x * y))
      | VMod m => if on then mk_weighted x (ETerm m) else Err       (* 337-340 *)
      | VExpr (EWtd _ _) => Err                                     (* no __rmul__: TypeError *)
      | VExpr e => mk_weighted x e                                  (* 92-95, 114-117, 202-205 *)
      end
  | VMod m =>
      if on then
        match b with
        | VNum y => mk_weighted y (ETerm m)                         (* 327-328 *)
        | VExpr (EWtd w e) => mk_weighted w (EProd [ETerm m; e])    (* 329-330 *)
        | VMod m' => Ok (VExpr (EProd [ETerm m; ETerm m']))         (* 331-332 *)
        | VExpr e => Ok (VExpr (EProd [ETerm m; e]))                (* 333-334 *)
        end
      else Err                                                      (* TypeError, or __rmul__ of b raises (93-94) *)
  | VExpr (ETerm m) =>                                              (* 87-90 *)
      match b with
      | VNum y => mk_weighted y (ETerm m)
      | _ => bind (as_expr b) (fun e => Ok (VExpr (EProd [ETerm m; e])))
      end
  | VExpr (EProd fs) =>                                             (* 109-112 *)
      match b with
      | VNum y => mk_weighted y (EProd fs)
      | _ => bind (as_expr b) (fun e => Ok (VExpr (EProd (fs ++ [e]))))
      end
  | VExpr (EWtd w e) =>                                             (* 164-169 *)
      bind (as_expr b) (fun e' => mk_weighted w (EProd [e; e']))
  | VExpr (ESum ts) =>                                              (* 197-200 *)
      match b with
      | VNum y => mk_weighted y (ESum ts)
      | _ => bind (as_expr b) (fun e => Ok (VExpr (EProd [ESum ts; e])))
      end
  end.

(** [a + b]: 97-100, 119-122, 150-162, 188-195, 342-346; everything that is not
    listed raises (InvalidParameterError or TypeError). *)
Definition pyadd (a b : pyval) : result pyval :=
  match a, b with
  | VNum x, VNum y => Ok (VNum (x + y))
  | VExpr (EWtd w e), VExpr (EWtd w' e') => mk_sumexpr [(w, e); (w', e')]   (* 151-152 *)
  | VExpr (EWtd w e), VExpr (ESum ts) => mk_sumexpr ((w, e) :: ts)          (* 153-154 *)
  | VExpr (ESum ts), VExpr (EWtd w e) => mk_sumexpr (ts ++ [(w, e)])        (* 189-190 *)
  | VExpr (ESum ts), VExpr (ESum ts') => mk_sumexpr (ts ++ ts')             (* 191-192 *)
  | _, _ => Err
  end.

(** Source expressions over the DSL, and their evaluation by Python. *)
Inductive src :=
| SNum (a : R) | SMod (m : module) | STerm (m : module)
| SMul (p q : src) | SAdd (p q : src) | SW (wt p : src).
Fixpoint run (on : bool) (p : src) : result pyval :=
  match p with
  | SNum a => Ok (VNum a)
  | SMod m => Ok (VMod m)
  | STerm m => Ok (VExpr (ETerm m))                                         (* 61-63 *)
  | SMul p q => bind (run on p) (fun a => bind (run on q) (fun b => pymul on a b))
  | SAdd p q => bind (run on p) (fun a => bind (run on q) (fun b => pyadd a b))
  | SW p q => bind (run on p) (fun a => bind (run on q) (fun b => w_helper a b))
  end.

(** [len({...}) == 1] over a list of extents *)
Definition one_value (l : list nat) : bool := Nat.eqb (length (nodup Nat.eq_dec l)) 1.

(** 223-243 *)
Definition validate_product (ms : list module) : result unit :=
  if Nat.ltb (length ms) 2 then Err
  else bind (all_pairwise_disjoint (map scope_of ms)) (fun b =>
    if negb b then Err
    else if negb (one_value (map (fun m => channels (out_shape m)) ms)) then Err
    else if negb (one_value (map (fun m => repetitions (out_shape m)) ms)) then Err
    else Ok tt).

(** 246-273; [channels != {1}] *)
Definition validate_sum (ms : list module) : result unit :=
  if Nat.ltb (length ms) 2 then Err
  else if negb (all_equal (map scope_of ms)) then Err
  else if negb (one_value (map (fun m => features (out_shape m)) ms)) then Err
  else if negb (one_value (map (fun m => channels (out_shape m)) ms)
                && forallb (Nat.eqb 1) (map (fun m => channels (out_shape m)) ms)) then Err
  else if negb (one_value (map (fun m => repetitions (out_shape m)) ms)) then Err
  else Ok tt.

(** 276-301 *)
Definition make_sum_weights (ws : list R) (f r : nat) : result wtensor :=
  if existsb (fun w => rleb w 0) ws then Err
  else if rleb (lsumR ws) 0 then Err
  else Ok (mkW f (length ws) 1 r (fun _ i _ _ => nth i ws 0 / lsumR ws)).

(** [build]: 84-85, 124-127, 145-148, 207-220 *)
Fixpoint ebuild (e : expr) : result module :=
  match e with
  | ETerm m => Ok m
  | EProd fs => bind (mapR ebuild fs) (fun ms => bind (validate_product ms) (fun _ => mk_product ms))
  | EWtd _ _ => Err
  | ESum ts =>
      bind (mapR (fun t => ebuild (snd t)) ts) (fun ms =>
      bind (validate_sum ms) (fun _ =>
      let m0 := hd (MProduct (MCat false (mkScope [] []) [])) ms in
      bind (make_sum_weights (map fst ts) (features (out_shape m0)) (repetitions (out_shape m0))) (fun w =>
      bind (sum_inputs ms) (fun inp => mk_sum_w inp 1 1 (W4 w)))))
  end.

(** 71-75 [build(value)]; a number has no [build] *)
Definition build (v : pyval) : result module :=
  match v with VNum _ => Err | VMod m => Ok m | VExpr e => ebuild e end.

(** [build(<source expression>)] *)
Definition build_src (on : bool) (p : src) : result module := bind (run on p) build.

(** The operator attributes of class Module: 320-324 read them, 348-351 replace
    them, 357-375 put them back.  A value is the identity of a function object;
    [None] = the attribute is missing. *)
Record ops := mkOps { o_mul : option nat; o_rmul : option nat; o_add : option nat; o_radd : option nat }.

(** 326-351: entering defines four new function objects, numbered from [n] *)
Definition patched (n : nat) : ops := mkOps (Some n) (Some (n + 1)%nat) (Some (n + 2)%nat) (Some (n + 3)%nat).

(** Programs that use dsl().  [PUse i] observes the current operators (the value of a
    DSL expression depends on nothing else) and records them under the label [i];
    [PRaise] raises. *)
Inductive prog :=
| PSkip | PUse (i : nat) | PRaise
| PSeq (p q : prog)
| PTry (p handler : prog)
| PWith (p : prog).

(** State: current operators, number of functions created so far, the operators each
    [PUse] saw.  The boolean result says whether an exception is propagating. *)
Fixpoint exec (p : prog) (o : ops) (n : nat) : ops * nat * list (nat * ops) * bool :=
  match p with
  | PSkip => (o, n, [], false)
  | PUse i => (o, n, [(i, o)], false)
  | PRaise => (o, n, [], true)
  | PSeq p q =>
      let '(o1, n1, t1, x1) := exec p o n in
      if x1 then (o1, n1, t1, true)
      else let '(o2, n2, t2, x2) := exec q o1 n1 in (o2, n2, t1 ++ t2, x2)
  | PTry p h =>
      let '(o1, n1, t1, x1) := exec p o n in
      if x1 then let '(o2, n2, t2, x2) := exec h o1 n1 in (o2, n2, t1 ++ t2, x2)
      else (o1, n1, t1, false)
  | PWith p =>
      let saved := o in                                             (* 321-324 *)
      let '(_, n1, t1, x1) := exec p (patched n) (n + 4) in         (* 348-354 *)
      (mkOps (o_mul saved) (o_rmul saved) (o_add saved) (o_radd saved), n1, t1, x1)  (* 355-375 *)
  end.

(** Contexts entered and left independently (two threads, or two suspended
    generators): each context [k] keeps what it saved on entry. *)
Inductive event := Enter (k : nat) | Exit (k : nat).
Fixpoint events (l : list event) (o : ops) (n : nat) (saved : nat -> ops) : ops :=
  match l with
  | [] => o
  | Enter k :: r => events r (patched n) (n + 4) (fun j => if Nat.eqb j k then o else saved j)
  | Exit k :: r => events r (saved k) n saved
  end.
