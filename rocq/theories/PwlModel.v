(** Model of PiecewiseLinear leaves: spflow/modules/leaves/piecewise_linear.py.
    Idealisation: floats are reals.  K-means is an arbitrary assignment of rows
    to clusters.  NaN parameters (a histogram with no sample in range) are [Err]. *)
From Coq Require Import List Arith ZArith Bool Reals.
From Verif Require Import Base ScopeModel CircuitModel LeafModel SampleModel CtxModel MleModel HistModel.
Import ListNotations.
Local Open Scope R_scope.

(** One entry: knots and the densities there (87-109: xs[r][l][f][c], ys[r][l][f][c]). *)
Record pw := mkPw { p_xs : list R; p_ys : list R }.
Definition knot (w : pw) (k : nat) : R := nth k (p_xs w) 0.
Definition height (w : pw) (k : nat) : R := nth k (p_ys w) 0.
Definition nknots (w : pw) : nat := length (p_xs w).

(** torch.searchsorted on a sorted row: right=False / right=True (padding is +inf) *)
Definition search_left (l : list R) (x : R) : nat := length (filter (fun e => rlt e x) l).
Definition search_right (l : list R) (x : R) : nat := length (filter (fun e => rle e x) l).

(** 176-185: slope and offset of interval [k] *)
Definition slope (w : pw) (k : nat) : R := (height w (S k) - height w k) / (knot w (S k) - knot w k).
Definition offset (w : pw) (k : nat) : R := height w k - slope w k * knot w k.
(** 186-191, 370-376: the interpolant, [M] the greatest number of knots of all
    entries (rows are padded to it); before the first knot the first height, after
    the last one the last height or, in a padded row, 0; clamped at 0 *)
Definition interp_at (M : nat) (w : pw) (x : R) : R :=
  let i := search_left (p_xs w) x in
  let v := match i with
           | O => height w 0
           | S k => if (S k <? nknots w)%nat then slope w k * x + offset w k
                    else if Nat.eqb i M then height w (nknots w - 1) else 0
           end in
  Rmax v 0.
(** 377-378 *)
Definition tiny : R := / 10 ^ 10.
Definition p_log_prob (M : nat) (w : pw) (x : R) : lval := Fin (Rmax (ln (interp_at M w x + tiny)) (-300)).

(** 193-198, 340-349: the first knot of greatest height *)
Definition p_mode (w : pw) : R := knot w (rargmax (nknots w) (height w)).

(** 213-221: partial areas by the trapezoid rule, and the normalised CDF *)
Definition trapezoid (w : pw) (k : nat) : R := (1 / 2) * (knot w (S k) - knot w k) * (height w k + height w (S k)).
Definition area (w : pw) (k : nat) : R := bsum k (trapezoid w).
Definition cdf (w : pw) (k : nat) : R := area w k / (area w (nknots w - 1) + tiny).
(** 310-321: the sample computed from one uniform number *)
Definition inv_cdf (w : pw) (u : R) : R :=
  let n := nknots w in
  let i := Nat.max (Nat.min (search_right (map (cdf w) (seq 0 n)) u) (n - 1)) 1 in
  let c0 := cdf w (i - 1) in let c1 := cdf w i in
  knot w (i - 1) + (knot w i - knot w (i - 1)) / (c1 - c0 + / 10 ^ 8) * (u - c0).

(** spflow/utils/domain.py 20-48 *)
Inductive pdomain := PDiscrete (values : list R) | PContinuous (mn mx : option R).

(** 302-336; torch.rand is a draw from [unit_leaf]; Categorical(probs=ys[1:-1])
    normalises its argument (and raises when it sums to 0) and draws an index *)
Definition p_sample (d : pdomain) (w : pw) : prog R :=
  match d with
  | PContinuous _ _ => Draw unit_leaf 0 0 0 (fun u => Ret (inv_cdf w u))
  | PDiscrete _ =>
      let n := (nknots w - 2)%nat in
      let s := bsum n (fun j => height w (S j)) in
      if Req_EM_T s 0 then Raise else Choose n (fun j => height w (S j) / s) (fun j => Ret (INR j))
  end.

(** torch.histogram(l, bins=es, density=True): bins are half open, the last one
    closed; counts over (samples in range * bin width) *)
Definition count_in (es : list R) (l : list R) (b : nat) : nat :=
  length (filter (fun x => rle (nth b es 0) x &&
    (rlt x (nth (S b) es 0) || (Nat.eqb (S (S b)) (length es) && rle x (nth (S b) es 0)))) l).
Definition in_range (es : list R) (l : list R) : nat := list_sum (map (count_in es l) (seq 0 (length es - 1))).
Definition densities (es : list R) (l : list R) : list R :=
  map (fun b => INR (count_in es l b) / (INR (in_range es l) * (nth (S b) es 0 - nth b es 0))) (seq 0 (length es - 1)).
(** 599-604: optional Laplace smoothing, [n] samples *)
Definition smooth (alpha : R) (n : nat) (ds : list R) : list R :=
  if rlt 0 alpha then map (fun d => (d * INR n + alpha) / (INR n + INR (length ds) * alpha)) ds else ds.
(** 630-635: trapezoid area, division by it if positive *)
Definition normalise (xs ys : list R) : pw :=
  let a := area (mkPw xs ys) (length xs - 1) in
  mkPw xs (if rlt 0 a then map (fun y => y / a) ys else ys).
(** python [a or b] on an optional number: 0 is false as well *)
Definition py_or (a : option R) (b : R) : R := match a with Some v => if Req_EM_T v 0 then b else v | None => b end.

(** 554-638: one entry, from the cluster's values [l] of the feature *)
Definition fit_feature (alpha : R) (d : pdomain) (l : list R) : result pw :=
  match d with
  | PDiscrete vs =>
      let es := vs ++ [last vs 0 + 1] in
      let xs := (hd 0 vs - 1) :: vs ++ [last vs 0 + 1] in
      let finish ds := Ok (normalise xs (0 :: smooth alpha (length l) ds ++ [0])) in
      match vs, l with
      | [], _ => Err
      | _, [] => finish (map (fun _ => 1 / INR (length vs)) vs)
      | _, _ => if Nat.eqb (in_range es l) 0 then Err else finish (densities es l)
      end
  | PContinuous mn mx =>
      let eps := / 10 ^ 8 in
      let finish es ds :=
        let mids := map (fun b => nth b es 0 + (nth (S b) es 0 - nth b es 0) / 2) (seq 0 (length es - 1)) in
        Ok (normalise ((nth 0 es 0 - eps) :: mids ++ [nth (length es - 1) es 0 + eps]) (0 :: smooth alpha (length l) ds ++ [0])) in
      match l with
      | [] => let es := linspace (py_or mn 0) (py_or mx 1) 10 in finish es (map (fun _ => 1 / INR 10) (seq 0 10))
      | _ => bind (bin_edges l None) (fun es => finish es (densities es l))
      end
  end.

(** The leaf: 414-429; [w_fit] is [None] before initialize() *)
Record pwl := mkPwl { w_scope : scope; w_ch : nat; w_rep : nat; w_alpha : R;
                      w_fit : option (list pdomain * (nat -> nat -> nat -> pw)) }.
(** 399-432 *)
Definition mk_pwl (sc : scope) (C P : nat) (alpha : R) : result pwl :=
  if rlt alpha 0 then Err else Ok (mkPwl sc C P alpha None).
Definition dom0 : pdomain := PContinuous None None.
(** a table of results, all computed or the first error *)
Definition all_ok3 {A} (dflt : A) (n1 n2 n3 : nat) (t : nat -> nat -> nat -> result A) : result (nat -> nat -> nat -> A) :=
  if forallb (fun i => forallb (fun j => forallb (fun k => match t i j k with Ok _ => true | Err => false end)
       (seq 0 n3)) (seq 0 n2)) (seq 0 n1)
  then Ok (fun i j k => match t i j k with Ok a => a | Err => dflt end) else Err.
(** 540-554: the values of feature [f] in cluster [c] *)
Fixpoint cluster_from (i : nat) (data : list (list R)) (assign : nat -> nat) (c f : nat) : list R :=
  match data with
  | [] => []
  | row :: rest => (if Nat.eqb (assign i) c then [nth f row 0] else []) ++ cluster_from (S i) rest assign c f
  end.
(** 487-654; [width] is data.shape[1]; [km r i] is the K-means cluster of row [i]
    in repetition [r]; entries are indexed repetition, leaf (channel), feature *)
Definition initialize (m : pwl) (km : nat -> nat -> nat) (width : nat) (data : list (list R)) (ds : list pdomain) : result pwl :=
  let F := length (query (w_scope m)) in
  if negb (Nat.eqb width F) then Err else
  if negb (Nat.eqb (length ds) F) then Err else
  let assign r := if (1 <? w_ch m)%nat then km r else fun _ => 0%nat in
  bind (all_ok3 (mkPw [] []) (w_rep m) (w_ch m) F (fun r c f => fit_feature (w_alpha m) (nth f ds dom0) (cluster_from 0 data (assign r) c f)))
    (fun t => Ok (mkPwl (w_scope m) (w_ch m) (w_rep m) (w_alpha m) (Some (ds, t)))).
(** 656-662 *)
Definition reset (m : pwl) : pwl := mkPwl (w_scope m) (w_ch m) (w_rep m) (w_alpha m) None.

(** 150-163: the flat order: features, channels (one), repetitions, leaves *)
Definition flat {A} (F P L : nat) (t : nat -> nat -> nat -> A) : list A :=
  flat_map (fun f => flat_map (fun r => map (fun l => t r l f) (seq 0 L)) (seq 0 P)) (seq 0 F).
(** 242-256: view(F, 1, R, L).permute: entry (feature f, leaf l, repetition r) *)
Definition unflat {A} (d : A) (F P L : nat) (v : list A) (f l r : nat) : A := nth ((f * P + r) * L + l) v d.
(** 165 *)
Definition max_points (l : list pw) : nat := fold_right Nat.max 0%nat (map nknots l).

(** 664-711 (and 351-379) at one row: the (feature, leaf, repetition) entry.  The
    code's tensor has shape (N, 1, F, L, R), see [ll_dims]. *)
Definition p_loglik (m : pwl) (x : row) : result (nat -> nat -> nat -> lval) :=
  match w_fit m with
  | None => Err
  | Some (_, t) =>
      let F := length (query (w_scope m)) in let P := w_rep m in let L := w_ch m in
      let ps := flat F P L t in
      let fidx := flat F P L (fun _ _ f => f) in
      let M := max_points ps in
      let lp := map (fun '(w, f) => match x (nth f (query (w_scope m)) 0%nat) with
                                    | None => p_log_prob M w 0
                                    | Some a => p_log_prob M w a end) (combine ps fidx) in
      Ok (fun f l r => match x (nth f (query (w_scope m)) 0%nat) with
                       | None => Fin 0
                       | Some _ => unflat NInf F P L lp f l r end)
  end.
Definition ll_dims (m : pwl) (N : nat) : list nat := [N; 1%nat; length (query (w_scope m)); w_ch m; w_rep m].
(** leaf.py 411-477: every other leaf returns (N, F, C, R) *)
Definition leaf_ll_dims (N F C P : nat) : list nat := [N; F; C; P].

(** leaf.py 1080-1119 with piecewise_linear.py 476-481: the parameters are python
    lists, which indexing by a list of positions (leaf.py 248) rejects *)
Definition p_marginalize (m : pwl) (rvs : list nat) : result (option pwl) :=
  match filter (fun q => negb (existsb (Nat.eqb q) rvs)) (query (w_scope m)) with
  | [] => Ok None
  | _ => Err
  end.
