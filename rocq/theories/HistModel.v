(** Model of Histogram leaves: spflow/modules/leaves/histogram.py and
    spflow/utils/histogram.py.  A leaf is univariate; one (channel, repetition)
    entry is modelled at a time (all operations act entrywise).
    Idealisation: floats are reals; logits may be -inf (a zero probability). *)
From Coq Require Import List Arith ZArith Bool Reals.
From Verif Require Import Base ScopeModel CircuitModel LeafModel SampleModel CtxModel MleModel.
Import ListNotations.
Local Open Scope R_scope.

(** Bins [0 .. nbins-1] with edges [edge 0 .. edge nbins]; parameters of one entry. *)
Record hist := mkHist { h_edges : list R; h_logits : nat -> lval; h_minp : R }.
Definition edge (h : hist) (b : nat) : R := nth b (h_edges h) 0.
(** histogram.py 52-54 *)
Definition nbins (h : hist) : nat := (length (h_edges h) - 1)%nat.

(** histogram.py 216-223 (and 32-39): at least two, strictly increasing edges *)
Fixpoint increasing (l : list R) : bool :=
  match l with
  | a :: ((b :: _) as r) => rlt a b && increasing r
  | _ => true
  end.
Definition edges_ok (l : list R) : bool := (2 <=? length l)%nat && increasing l.

(** histogram.py 207-253: Histogram(scope, bin_edges, logits= / probs=, min_prob=);
    [n] is the length of the scope's query, [B] the last dimension of the parameter *)
Definition mk_hist_logits (n : nat) (es : list R) (B : nat) (lg : nat -> R) (mp : R) : result hist :=
  if negb (Nat.eqb n 1) then Err else
  if negb (edges_ok es) then Err else
  if negb (Nat.eqb B (length es - 1)) then Err else Ok (mkHist es (fun b => Fin (lg b)) mp).
(** for non-negative [p]; projections.py proj_convex_to_real is the logarithm *)
Definition mk_hist_probs (n : nat) (es : list R) (B : nat) (p : nat -> R) (mp : R) : result hist :=
  if negb (Nat.eqb n 1) then Err else
  if negb (edges_ok es) then Err else
  if negb (Nat.eqb B (length es - 1)) then Err else Ok (mkHist es (fun b => lfrom (p b)) mp).

(** histogram.py 56-58, 266-268: probs = softmax(logits) *)
Definition h_probs (h : hist) (b : nat) : R := pr (h_logits h b) / bsum (nbins h) (fun j => pr (h_logits h j)).
(** 60-66 *)
Definition h_width (h : hist) (b : nat) : R := edge h (S b) - edge h b.
Definition h_mid (h : hist) (b : nat) : R := (edge h b + edge h (S b)) / 2.
Fixpoint rmaxn (n : nat) (g : nat -> R) : R :=
  match n with O => 0 | S k => if Nat.eqb k 0 then g 0%nat else Rmax (rmaxn k g) (g k) end.

(** torch.bucketize(x, edges, right=True): the number of edges not above [x] *)
Definition bucketize (es : list R) (x : R) : nat := length (filter (fun e => rle e x) es).
(** 110, 314: x >= edges[0] and x < edges[-1] *)
Definition in_support (h : hist) (x : R) : bool := rle (edge h 0) x && rlt x (edge h (nbins h)).
(** clamp to [0, nbins - 1] of bucketize - 1 *)
Definition bin_safe (h : hist) (x : R) : nat := Nat.min (bucketize (h_edges h) x - 1) (nbins h - 1).

(** torch.clamp_min on log values *)
Definition lmax (a b : lval) : lval :=
  match a, b with
  | NInf, _ => b
  | _, NInf => a
  | Fin x, Fin y => Fin (Rmax x y)
  end.
(** histogram.py 93-128 *)
Definition h_log_prob (h : hist) (x : R) : lval :=
  let ld b := ladd (lfrom (h_probs h b)) (Fin (- ln (h_width h b))) in
  let floor := ladd (lfrom (h_minp h)) (Fin (- ln (rmaxn (nbins h) (h_width h)))) in
  if in_support h x then lmax (ld (bin_safe h x)) floor else NInf.

(** histogram.py 75-80 *)
Definition h_mode (h : hist) : R := h_mid h (rargmax (nbins h) (h_probs h)).

(** histogram.py 130-150: a categorical draw of the bin, then [left + u * (right -
    left)] with [u] drawn by torch.rand, uniform on [0, 1); the draw from the
    one-variable Uniform(0, 1) leaf [unit_leaf] stands for torch.rand *)
Definition unit_leaf : leaf := fl_leaf (mk_fleaf (mkScope [0%nat] []) 1 1 (fun _ _ _ => FUniform 0 1)) (fun _ _ _ => 0).
Definition h_sample (h : hist) : prog R :=
  Choose (nbins h) (h_probs h) (fun b =>
    Draw unit_leaf 0 0 0 (fun u => Ret (edge h b + u * (edge h (S b) - edge h b)))).

(** histogram.py 270-278: the probs setter, for finite values *)
Definition set_probs (h : hist) (p : nat -> R) : result hist :=
  if negb (allb (nbins h) (fun b => rle 0 (p b))) then Err else
  let s := Rmax (bsum (nbins h) p) (h_minp h) in
  Ok (mkHist (h_edges h) (fun b => lfrom (Rmax (p b / s) (h_minp h))) (h_minp h)).

(** histogram.py 299-334 at one entry; [l] lists the (weight, value) pairs *)
Definition h_estimate (h : hist) (l : list (R * R)) : result (nat -> R) :=
  if negb (forallb (fun p => in_support h (snd p)) l) then Err else
  let counts b := lsumR (map (fun p => fst p * (if Nat.eqb (bucketize (h_edges h) (snd p) - 1) b then 1 else 0)) l) in
  let s := Rmax (bsum (nbins h) counts) (h_minp h) in
  let p1 b := Rmax (counts b / s) (h_minp h) in
  Ok (fun b => p1 b / bsum (nbins h) p1).
(** leaf.py 246-260, 280-295: estimate, then assign through the setter *)
Definition h_fit (h : hist) (l : list (R * R)) : result hist := bind (h_estimate h l) (set_probs h).

(** histogram.py 204: the default of min_prob; 336-348 (the scope's variable is
    not among [marg_rvs]): a new leaf is built without passing min_prob *)
Definition default_min_prob : R := / 10 ^ 12.
Definition h_marginalize (h : hist) : hist := mkHist (h_edges h) (h_logits h) default_min_prob.

(** The leaf over variable [v] whose (channel, repetition) entries are [hs]. *)
Definition h_leaf (v C P : nat) (hs : nat -> nat -> hist) : leaf :=
  mkLeaf (mkScope [v] []) C P (fun _ c r => h_log_prob (hs c r)) (fun _ c r => h_mode (hs c r)).

(** ** utils/histogram.py *)
(** torch.min / torch.max of a non-empty list *)
Definition lmin (l : list R) : R := match l with [] => 0 | a :: r => fold_left Rmin r a end.
Definition lmaxR (l : list R) : R := match l with [] => 0 | a :: r => fold_left Rmax r a end.
(** torch.quantile with linear interpolation *)
Fixpoint rinsert (x : R) (l : list R) : list R :=
  match l with [] => [x] | y :: r => if Rle_dec x y then x :: l else y :: rinsert x r end.
Definition rsort (l : list R) : list R := fold_right rinsert [] l.
Definition quantile (q : R) (l : list R) : R :=
  let s := rsort l in
  let pos := q * (INR (length l) - 1) in
  let lo := Z.to_nat (Int_part pos) in
  let hi := Z.to_nat (- Int_part (- pos)) in
  nth lo s 0 + (pos - INR lo) * (nth hi s 0 - nth lo s 0).
(** 24-37 *)
Definition fd_width (l : list R) : R :=
  2 * (quantile (3 / 4) l - quantile (1 / 4) l) * Rpower (INR (length l)) (- (1 / 3)).
(** 12-21, 40-52 *)
Definition sturges_width (l : list R) : R := (lmaxR l - lmin l) / (ln (INR (length l)) / ln 2 + 1).
(** 55-69 *)
Definition auto_width (l : list R) : R :=
  if rlt 0 (fd_width l) then Rmin (fd_width l) (sturges_width l) else sturges_width l.
(** 72-104; [rb] is range_bounds *)
Definition outer_edges (l : list R) (rb : option (R * R)) : result (R * R) :=
  let expand p := if Req_EM_T (fst p) (snd p) then (fst p - 1 / 2, snd p + 1 / 2) else p in
  match rb with
  | Some (a, b) => if rlt b a then Err else Ok (expand (a, b))
  | None => match l with [] => Ok (0, 1) | _ => Ok (expand (lmin l, lmaxR l)) end
  end.
(** torch.linspace(a, b, n + 1) *)
Definition linspace (a b : R) (n : nat) : list R := map (fun k => a + INR k * ((b - a) / INR n)) (seq 0 (S n)).
(** 107-148 *)
Definition bin_edges (l : list R) (rb : option (R * R)) : result (list R) :=
  bind (outer_edges l rb) (fun '(a, b) =>
    let l' := match rb with Some _ => filter (fun x => rle a x && rle x b) l | None => l end in
    let n := match l' with
             | [] => 1%nat
             | _ => let w := auto_width l' in
                    if rlt 0 w then Z.to_nat (- Int_part (- ((b - a) / w))) else 1%nat
             end in
    Ok (linspace a b n)).
