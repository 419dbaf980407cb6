(** Model of zoo/hclt/topk_mst.py: Kruskal on a complete graph given a dense weight
    matrix, and the enumeration of the k best spanning trees.

    A matrix cell is an extended real or NaN.  The matrix a caller passes to
    [topk_mst] holds finite numbers or NaN ([None]); infinite cells are written by
    the code itself (constraints and dropout).  Floating-point rounding of the totals
    is not modelled.  Edge lists hold nat indices (no negative indexing). *)
From Coq Require Import List Arith Bool Reals.
From Verif Require Import Base.
Import ListNotations.
Local Open Scope R_scope.

Notation medge := (nat * nat)%type.
Definition eqe (e f : medge) : bool := (Nat.eqb (fst e) (fst f) && Nat.eqb (snd e) (snd f))%bool.
Definition meme (e : medge) (l : list medge) : bool := existsb (eqe e) l.

(** _canon_edge: topk_mst.py 23-25 *)
Definition canon (e : medge) : medge := if Nat.leb (fst e) (snd e) then e else (snd e, fst e).

(** ** _UnionFind: topk_mst.py 28-55 *)
Record uf := mkUF { u_parent : nat -> nat; u_rank : nat -> nat }.
Definition set1 (f : nat -> nat) (x v : nat) : nat -> nat := fun y => if Nat.eqb y x then v else f y.
(** create: 33-35 *)
Definition uf_create : uf := mkUF (fun v => v) (fun _ => 0%nat).
(** find: 37-41, path halving; [Err] stands for a loop that does not end *)
Fixpoint uf_find (fuel : nat) (p : nat -> nat) (x : nat) : result (nat * (nat -> nat)) :=
  match fuel with
  | O => Err
  | S k => if Nat.eqb (p x) x then Ok (x, p)
           else let p' := set1 p x (p (p x)) in uf_find k p' (p' x)
  end.
(** union: 43-55 *)
Definition uf_union (n : nat) (u : uf) (a b : nat) : result (bool * uf) :=
  bind (uf_find n (u_parent u) a) (fun fa =>
  bind (uf_find n (snd fa) b) (fun fb =>
    let ra := fst fa in let rb := fst fb in let p := snd fb in let rk := u_rank u in
    if Nat.eqb ra rb then Ok (false, mkUF p rk)
    else if Nat.ltb (rk ra) (rk rb) then Ok (true, mkUF (set1 p ra rb) rk)
    else if Nat.ltb (rk rb) (rk ra) then Ok (true, mkUF (set1 p rb ra) rk)
    else Ok (true, mkUF (set1 p rb ra) (set1 rk ra (S (rk ra)))))).

(** ** Matrix cells *)
Inductive wt := NaN | NegInf | Num (r : R) | PosInf.
Definition is_nan (a : wt) : bool := match a with NaN => true | _ => false end.
(** strictly smaller, no NaN involved *)
Definition wlt (a b : wt) : bool :=
  match a, b with
  | NegInf, Num _ | NegInf, PosInf | Num _, PosInf => true
  | Num x, Num y => if Rlt_dec x y then true else false
  | _, _ => false
  end.
Definition wneg (a : wt) : wt :=
  match a with NaN => NaN | NegInf => PosInf | Num r => Num (- r) | PosInf => NegInf end.

(** np.triu_indices(n, k=1): 70 *)
Definition triu (n : nat) : list medge :=
  flat_map (fun i => map (fun j => (i, j)) (seq (S i) (n - S i))) (seq 0 n).
(** np.lexsort((jj, ii, key)): by key, then by i, then by j: 74-77 *)
Definition before (key : nat -> nat -> wt) (e f : medge) : bool :=
  let ke := key (fst e) (snd e) in let kf := key (fst f) (snd f) in
  (wlt ke kf || (negb (wlt kf ke) &&
    (Nat.ltb (fst e) (fst f) || (Nat.eqb (fst e) (fst f) && Nat.ltb (snd e) (snd f)))))%bool.
Fixpoint einsert (key : nat -> nat -> wt) (e : medge) (l : list medge) : list medge :=
  match l with [] => [e] | f :: r => if before key f e then f :: einsert key e r else e :: l end.
Definition lexsort (key : nat -> nat -> wt) (l : list medge) : list medge := fold_right (einsert key) [] l.

(** the loop 81-87 *)
Fixpoint kloop (n : nat) (order : list medge) (u : uf) (mst : list medge) : result (list medge) :=
  match order with
  | [] => Ok mst
  | e :: rest =>
      bind (uf_union n u (fst e) (snd e)) (fun bu =>
        if fst bu then
          let mst' := mst ++ [e] in
          if Nat.eqb (length mst') (n - 1) then Ok mst' else kloop n rest (snd bu) mst'
        else kloop n rest (snd bu) mst)
  end.
(** kruskal_mst_complete: 58-88, a matrix with the given numbers of rows and columns *)
Definition kruskal_mst_complete (rows cols : nat) (w : nat -> nat -> wt) (minimize : bool) : result (list medge) :=
  if negb (Nat.eqb rows cols) then Err
  else if Nat.eqb rows 0 then Err
  else if existsb (fun i => existsb (fun j => is_nan (w i j)) (seq 0 rows)) (seq 0 rows) then Err
  else
    let key := if minimize then w else fun i j => wneg (w i j) in
    bind (kloop rows (lexsort key (triu rows)) uf_create []) (fun mst => Ok (map canon mst)).

(** ** mst_with_constraints: topk_mst.py 91-138 *)
Definition cell_of (o : option R) : wt := match o with None => NaN | Some r => Num r end.
Definition num_of (o : option R) : R := match o with None => 0 | Some r => r end.
(** the [reuse] buffer after lines 107-125: weights, then dropout, then included
    edges, then excluded edges; the dropout mask (111-113) is a parameter *)
Definition reuse (w : nat -> nat -> option R) (drop : bool) (mask : nat -> nat -> bool)
  (inc exc : list medge) (i j : nat) : wt :=
  if meme (canon (i, j)) exc then PosInf
  else if meme (canon (i, j)) inc then NegInf
  else if (drop && ((Nat.ltb i j && mask i j) || (Nat.ltb j i && mask j i)))%bool then PosInf
  else cell_of (w i j).
Definition subset (l m : list medge) : bool := forallb (fun e => meme e m) l.
Definition total_of (w : nat -> nat -> option R) (T : list medge) : R :=
  lsumR (map (fun e => num_of (w (fst e) (snd e))) T).
Definition rlt (a b : R) : bool := if Rlt_dec a b then true else false.
Definition mst_with_constraints (n : nat) (w : nat -> nat -> option R) (inc exc : list medge)
  (dropout : R) (mask : nat -> nat -> bool) (minimize : bool) : result (option (list medge * R)) :=
  if (rlt dropout 0 || negb (rlt dropout 1))%bool then Err
  else
    let inc := map canon inc in let exc := map canon exc in
    if existsb (fun e => Nat.leb n (snd e)) (inc ++ exc) then Err
    else
      bind (kruskal_mst_complete n n (reuse w (rlt 0 dropout) mask inc exc) minimize) (fun mst =>
        if negb (subset inc mst) then Ok None
        else if existsb (fun e => meme e exc) mst then Ok None
        else Ok (Some (mst, total_of w mst))).

(** ** topk_mst: topk_mst.py 141-222 *)
Record hentry := mkH { h_total : R; h_mst : list medge; h_inc : list medge; h_exc : list medge }.
(** Python's order on tuples of edges *)
Definition pcmp (e f : medge) : comparison :=
  match Nat.compare (fst e) (fst f) with Eq => Nat.compare (snd e) (snd f) | c => c end.
Fixpoint lcmp (l m : list medge) : comparison :=
  match l, m with
  | [], [] => Eq
  | [], _ :: _ => Lt
  | _ :: _, [] => Gt
  | e :: l', f :: m' => match pcmp e f with Eq => lcmp l' m' | c => c end
  end.
(** heap entries compare by total, then by key_for(...): 174-178 *)
Definition hlt (a b : hentry) : bool :=
  if Rlt_dec (h_total a) (h_total b) then true
  else if Rlt_dec (h_total b) (h_total a) then false
  else match lcmp (h_mst a) (h_mst b) with
       | Lt => true | Gt => false
       | Eq => match lcmp (h_inc a) (h_inc b) with
               | Lt => true | Gt => false
               | Eq => match lcmp (h_exc a) (h_exc b) with Lt => true | _ => false end
               end
       end.
(** heapq as a priority queue: heappush adds, heappop removes the smallest entry *)
Fixpoint pop_min (h : list hentry) : option (hentry * list hentry) :=
  match h with
  | [] => None
  | a :: r => match pop_min r with
              | None => Some (a, [])
              | Some (b, r') => if hlt b a then Some (b, a :: r') else Some (a, r)
              end
  end.
(** the branching loop: 194-220; [t] counts the calls, [masks t] is the dropout mask
    drawn by call [t] *)
Fixpoint branch (n : nat) (w : nat -> nat -> option R) (dropout : R) (masks : nat -> nat -> nat -> bool) (minimize : bool)
  (edges inc exc : list medge) (added : bool) (t : nat) (heap : list hentry) : result (list hentry * nat) :=
  match edges with
  | [] => Ok (heap, t)
  | e :: rest =>
      if meme e inc then branch n w dropout masks minimize rest inc exc added t heap
      else
        let inc1 := if added then inc ++ [last exc (0, 0)%nat] else inc in
        let exc1 := (if added then removelast exc else exc) ++ [e] in
        bind (mst_with_constraints n w inc1 exc1 dropout (masks t) minimize) (fun cand =>
          branch n w dropout masks minimize rest inc1 exc1 true (S t)
            match cand with
            | None => heap
            | Some (m, tot) => mkH tot m inc1 exc1 :: heap
            end)
  end.
(** the main loop: 180-222, [left] is num_trees - len(out) *)
Fixpoint tloop (left : nat) (n : nat) (w : nat -> nat -> option R) (dropout : R) (masks : nat -> nat -> nat -> bool) (minimize : bool)
  (heap : list hentry) (out : list (list medge)) (t : nat) : result (list (list medge)) :=
  match left with
  | O => Ok out
  | S k =>
      match pop_min heap with
      | None => Ok out
      | Some (h, heap') =>
          let out' := out ++ [h_mst h] in
          if Nat.eqb k 0 then Ok out'
          else bind (branch n w dropout masks minimize (map canon (h_mst h)) (map canon (h_inc h)) (map canon (h_exc h)) false t heap')
                 (fun ht => tloop k n w dropout masks minimize (fst ht) out' (snd ht))
      end
  end.
Definition topk_mst (rows cols : nat) (w : nat -> nat -> option R) (num_trees : nat) (dropout : R)
  (masks : nat -> nat -> nat -> bool) (minimize : bool) : result (list (list medge)) :=
  if Nat.eqb num_trees 0 then Err
  else if negb (Nat.eqb rows cols) then Err
  else bind (mst_with_constraints rows w [] [] 0 (fun _ _ => false) minimize) (fun r =>
    match r with
    | None => Ok []
    | Some (mst0, total0) =>
        tloop num_trees rows w dropout masks minimize [mkH total0 mst0 [] []] [] 0
    end).
