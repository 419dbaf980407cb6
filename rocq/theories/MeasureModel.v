(** Model of spflow/measures: _utils.py, information_theory.py,
    weight_of_evidence.py.  Bernoulli and Categorical leaves are recognised by
    [kind]: the number of states isinstance/K tells (142-157), [None] for every
    other leaf class.  Not modelled: devices, dtypes, seeding (178-189), log-
    likelihood tensors of fewer than four dimensions (47-52). *)
From Coq Require Import List Arith Bool Lia.
From Verif Require Import Base ScopeModel CircuitModel CircuitMarg.
Import ListNotations.
Local Open Scope R_scope.

(** _utils.py 59-68 *)
Inductive agg := First | LogSumExp | LogMeanExp.
Definition reduce_over (a : agg) (n : nat) (t : nat -> lval) : lval :=
  if Nat.eqb n 1 then t 0%nat
  else match a with
       | First => t 0%nat
       | LogSumExp => lse n t
       | LogMeanExp => ladd (lse n t) (Fin (- ln (INR n)))
       end.

(** reduce_log_likelihood, one row: _utils.py 57 (sum over features), 70-71 *)
Definition reduce_ll (ca ra : agg) (s : shape) (t : nat -> nat -> nat -> lval) : lval :=
  reduce_over ca (channels s) (fun c =>
    reduce_over ra (repetitions s) (fun r => ladds (features s) (fun f => t f c r))).

Section Kind.
Variable kind : leaf -> option nat.

(** infer_discrete_domains: 128-175; iter_modules visits every leaf (75-105).  The
    result maps a variable to the number of its states. *)
Definition sizes (m : module) (v : nat) : list (option nat) :=
  map kind (filter (fun l => memb v (query (l_scope l))) (leaves_of m)).
Definition supported (k : option nat) : bool := match k with Some n => negb (Nat.ltb n 1) | None => false end.
Definition infer_domains (m : module) (q : list nat) : result (nat -> nat) :=
  if negb (forallb (fun v => forallb supported (sizes m v)) q) then Err        (* 151-152, 159-161 *)
  else if existsb (fun v => match sizes m v with [] => true | _ => false end) q then Err (* 163-168 *)
  else if negb (forallb (fun v => match sizes m v with
                                  | [] => true
                                  | k0 :: r => forallb (fun k => match k, k0 with Some a, Some b => Nat.eqb a b | _, _ => false end) r
                                  end) q) then Err                              (* 170-173 *)
  else Ok (fun v => match sizes m v with Some k :: _ => k | _ => 0%nat end).

(** torch.cartesian_prod of [0..K v - 1] for v in [q]: 55-59 *)
Fixpoint grid (K : nat -> nat) (q : list nat) : list (list R) :=
  match q with
  | [] => [[]]
  | v :: r => flat_map (fun a => map (cons (INR a)) (grid K r)) (seq 0 (K v))
  end.
(** 61-64: a row of NaN with the columns [q] filled *)
Fixpoint fill (q : list nat) (vals : list R) : row :=
  match q, vals with
  | v :: r, a :: s => upd (fill r s) v (Some a)
  | _, _ => fun _ => None
  end.
(** 72-74 *)
Definition plogp (l : lval) : R := match l with NInf => 0 | Fin a => exp a * a end.

(** entropy(model, scope, method="exact"): 46-75.  The data has as many columns as
    the model has variables (61), so every column index used must be smaller. *)
Definition entropy (ca ra : agg) (m : module) (sc : scope) : result R :=
  if scope_empty sc then Err
  else bind (infer_domains m (query sc)) (fun K =>
    let d := length (query (scope_of m)) in
    if negb (forallb (fun v => Nat.ltb v d) (query sc)) then Err                (* 64 *)
    else if negb (forallb (fun v => Nat.ltb v d) (query (scope_of m))) then Err (* leaf.py 432: data[:, scope.query] *)
    else bind (ll_shape m) (fun s =>
      Ok (- lsumR (map (fun vals => plogp (reduce_ll ca ra s (loglik m (fill (query sc) vals)))) (grid K (query sc)))))).

(** mutual_information(..., method="exact"): 108-135 *)
Definition mutual_information (ca ra : agg) (m : module) (x y : scope) : result R :=
  if negb (disjb (query x) (query y)) then Err
  else bind (entropy ca ra m x) (fun hx =>
       bind (entropy ca ra m y) (fun hy =>
       bind (scope_init_nat (query x ++ query y) []) (fun xy =>
       bind (entropy ca ra m xy) (fun hxy => Ok (hx + hy - hxy))))).

(** conditional_mutual_information(..., method="exact"): 181-218 *)
Definition conditional_mutual_information (ca ra : agg) (m : module) (x y z : scope) : result R :=
  if has_dup (query x ++ query y ++ query z) then Err
  else bind (entropy ca ra m z) (fun hz =>
       bind (scope_init_nat (query x ++ query z) []) (fun xz =>
       bind (entropy ca ra m xz) (fun hxz =>
       bind (scope_init_nat (query y ++ query z) []) (fun yz =>
       bind (entropy ca ra m yz) (fun hyz =>
       bind (scope_init_nat (query x ++ query y ++ query z) []) (fun xyz =>
       bind (entropy ca ra m xyz) (fun hxyz => Ok (hxz + hyz - hz - hxyz)))))))).

(** Monte Carlo: 77-93, 140-165, 223-256 as functions of the drawn samples.  [None]
    stands for a non-finite mean. *)
Definition ll_for (ca ra : agg) (m : module) (s : shape) (q : list nat) (x : row) : lval :=
  reduce_ll ca ra s (loglik m (fun v => if memb v q then x v else None)).
Definition lreal (l : lval) : option R := match l with Fin a => Some a | NInf => None end.
Fixpoint osum (l : list (option R)) : option R :=
  match l with
  | [] => Some 0
  | Some a :: r => match osum r with Some b => Some (a + b) | None => None end
  | None :: _ => None
  end.
Definition omean (l : list (option R)) : option R :=
  match osum l with Some a => Some (a / INR (length l)) | None => None end.
Definition mc_entropy (ca ra : agg) (m : module) (s : shape) (q : list nat) (xs : list row) : option R :=
  match omean (map (fun x => lreal (ll_for ca ra m s q x)) xs) with Some a => Some (- a) | None => None end.
Definition osub (a b : option R) : option R := match a, b with Some x, Some y => Some (x - y) | _, _ => None end.
Definition mc_mutual_information (ca ra : agg) (m : module) (s : shape) (x y : list nat) (xs : list row) : option R :=
  let t q w := lreal (ll_for ca ra m s q w) in
  omean (map (fun w => osub (osub (t (x ++ y) w) (t x w)) (t y w)) xs).

(** conditional_probability, one row: weight_of_evidence.py 42-59.  [None] = NaN
    (the evidence has probability zero). *)
Definition conditional_probability (ca ra : agg) (m : module) (s : shape) (y : nat) (yv : R) (e : row) : option R :=
  let joint := upd e y (Some yv) in
  let denom := upd e y None in
  let llj := reduce_ll ca ra s (loglik m joint) in
  let lld := reduce_ll ca ra s (loglik m denom) in
  match lld with
  | NInf => None
  | Fin b => Some (match llj with NInf => 0 | Fin a => exp (a - b) end)
  end.

(** 127-134 *)
Definition laplace (n k : nat) (p : R) : R := (p * INR n + 1) / (INR n + INR k).
Definition clamp (eps p : R) : R := Rmin (Rmax p eps) (1 - eps).
Definition logit (p : R) : R := ln (p / (1 - p)).

(** weight_of_evidence, one row: 103-134 *)
Definition card_y (m : module) (y : nat) (k : option nat) : result nat :=
  match k with Some k => Ok k | None => bind (infer_domains m [y]) (fun K => Ok (K y)) end.
Definition woe_row (ca ra : agg) (m : module) (s : shape) (n k : nat) (eps : R) (y : nat) (yv : R) (full reduced : row) : option R :=
  match conditional_probability ca ra m s y yv full, conditional_probability ca ra m s y yv reduced with
  | Some p1, Some p2 => Some (logit (clamp eps (laplace n k p1)) - logit (clamp eps (laplace n k p2)))
  | _, _ => None
  end.
Definition weight_of_evidence (ca ra : agg) (m : module) (n : nat) (k : option nat) (eps : R) (y : nat) (yv : R)
    (full reduced : list row) : result (list (option R)) :=
  if negb (Nat.eqb (length full) (length reduced)) then Err                     (* 98-102 *)
  else if Nat.ltb n 1 then Err                                                  (* 103 *)
  else bind (card_y m y k) (fun k =>                                            (* 106-108 *)
       bind (ll_shape m) (fun s =>
       Ok (map (fun p => woe_row ca ra m s n k eps y yv (fst p) (snd p)) (combine full reduced)))).

(** weight_of_evidence_leave_one_out: 171-208; the result is indexed by row and column *)
Definition leave_one_out (ca ra : agg) (m : module) (n : nat) (k : option nat) (eps : R) (y : nat) (yv : R) (ncols : nat) (xs : list row)
    : result (nat -> nat -> option R) :=
  let base := map (fun x => upd x y (Some yv)) xs in                            (* 171-172 *)
  let scored j := (negb (Nat.eqb j y) && existsb (fun x : row => match x j with Some _ => true | None => false end) xs)%bool in (* 178-179, 185-188 *)
  let out i j := if Nat.eqb j y then None else nth i xs (fun _ => None) j in    (* 174-175 *)
  if negb (existsb scored (seq 0 ncols)) then Ok out                            (* 181-182 *)
  else if Nat.ltb n 1 then Err
  else bind (card_y m y k) (fun k =>
       bind (ll_shape m) (fun s =>
       Ok (fun i j =>
         if scored j
         then let b := nth i base (fun _ => None) in
              woe_row ca ra m s n k eps y yv b (upd b j None)                   (* 190-206 *)
         else out i j))).

End Kind.
