(** Model of Prometheus structure learning (spflow/learn/prometheus.py), for scopes without
    evidence.  networkx graphs are lists of weighted edges (u, v, w) with u < v in insertion
    order (self-loops never enter a spanning tree); union-find and breadth-first search are
    label maps.  Clustering, similarities, leaf estimation and random weights are oracles as
    in LearnModel. *)
From Coq Require Import List Arith Bool Reals.
From Verif Require Import Base ScopeModel CircuitModel LearnModel CnetModel.
Import ListNotations.
Local Open Scope R_scope.

(** ** Graphs *)
Definition edge : Type := nat * nat * R.
Definition ends (e : edge) : nat * nat := fst e.
Definition weight (e : edge) : R := snd e.

(** the component of each node, named by its smallest node *)
Definition merge (lab : nat -> nat) (u v : nat) : nat -> nat :=
  let a := Nat.min (lab u) (lab v) in let b := Nat.max (lab u) (lab v) in
  fun w => if Nat.eqb (lab w) b then a else lab w.
Definition labels (E : list (nat * nat)) : nat -> nat := fold_left (fun lab e => merge lab (fst e) (snd e)) E (fun v => v).
(** [sorted(list(c)) for c in connected_components(graph)] over nodes 0..d-1 *)
Definition comps (d : nat) (E : list (nat * nat)) : list (list nat) :=
  map (fun a => filter (fun v => Nat.eqb (labels E v) a) (seq 0 d)) (filter (fun v => Nat.eqb (labels E v) v) (seq 0 d)).

(** Graph.edges: by first node, in insertion order *)
Definition iterate (d : nat) (E : list edge) : list edge := flat_map (fun a => filter (fun e => Nat.eqb (fst (ends e)) a) E) (seq 0 d).
(** sorted(l, key): stable *)
Fixpoint kinsert (key : edge -> R) (e : edge) (l : list edge) : list edge :=
  match l with [] => [e] | f :: r => if rleb (key e) (key f) then e :: l else f :: kinsert key e r end.
Definition ksort (key : edge -> R) (l : list edge) : list edge := fold_right (kinsert key) [] l.

(** maximum_spanning_tree: Kruskal *)
Definition kstep (s : (nat -> nat) * list edge) (e : edge) : (nat -> nat) * list edge :=
  let '(lab, acc) := s in
  if Nat.eqb (lab (fst (ends e))) (lab (snd (ends e))) then s else (merge lab (fst (ends e)) (snd (ends e)), acc ++ [e]).
Definition max_spanning_tree (d : nat) (E : list edge) : list edge :=
  snd (fold_left kstep (ksort (fun e => - weight e) (iterate d E)) (fun v => v, [])).

(** 153-162, 278-285: sever the edges from the weakest *)
Definition sever (d : nat) (T : list edge) : list (list (list nat)) :=
  let S := ksort weight (iterate d T) in map (fun i => comps d (map ends (skipn i S))) (seq 1 (length S)).

(** from_numpy_array: an edge for every pair with a nonzero entry, the entry of the later
    row wins *)
Definition matrix_edges (d : nat) (A : nat -> nat -> R) : list edge :=
  flat_map (fun i => flat_map (fun j =>
    if Nat.ltb i j then if negb (reqb (A j i) 0) then [((i, j), A j i)] else if negb (reqb (A i j) 0) then [((i, j), A i j)] else [] else [])
    (seq 0 d)) (seq 0 d).
(** 131-162 *)
Definition partitions_full (d : nat) (A : nat -> nat -> R) : list (list (list nat)) :=
  if Nat.leb d 1 then [] else sever d (max_spanning_tree d (matrix_edges d A)).
(** 254-285 *)
Definition chain (reps : list nat) : list edge := map (fun p => (p, 0)) (combine reps (tl reps)).
Definition partitions_sampled (d : nat) (E : list edge) : list (list (list nat)) :=
  if Nat.leb d 1 then [] else
  let T := max_spanning_tree d E in
  let cs := comps d (map ends T) in
  sever d (if Nat.ltb 1 (length cs) then T ++ chain (map (fun c => hd 0%nat c) cs) else T).

(** 165-169 *)
Definition default_samples (d : nat) : nat := if Nat.leb d 1 then 0%nat else Nat.max 1 (Nat.min (d - 1) (Nat.log2 d)).
(** 200-212, 239-251: [choice i] is rng.choice(d - 1, size=k, replace=False) for variable i,
    [w a b] the similarity of two columns *)
Definition sampled_edges (d k : nat) (choice : nat -> list nat) (w : nat -> nat -> R) : list edge :=
  if (Nat.leb d 1 || Nat.leb k 0)%bool then [] else
  fold_left (fun acc i => fold_left (fun acc c =>
      let j := if Nat.ltb c i then c else S c in
      let a := Nat.min i j in let b := Nat.max i j in
      if existsb (fun e => Nat.eqb (fst (ends e)) a && Nat.eqb (snd (ends e)) b)%bool acc then acc else acc ++ [((a, b), w a b)])
    (choice i) acc) (seq 0 d) [].

(** 82-105: absolute correlations of the columns *)
Definition colmean (data : list (nat -> R)) (v : nat) : R := lsumR (map (fun x => x v) data) / INR (length data).
Definition centred (data : list (nat -> R)) (v : nat) : list R := map (fun x => x v - colmean data v) data.
Definition scaled (data : list (nat -> R)) (v : nat) : list R :=
  let c := centred data v in map (fun a => a / Rmax (sqrt (lsumR (map (fun a => a * a) c))) (/ 10 ^ 12)) c.
Definition affinity_corr (d : nat) (data : list (nat -> R)) (i j : nat) : R :=
  if Nat.eqb d 1 then 1 else
  if Nat.eqb i j then 1 else
  Rabs (Rmax (-1) (Rmin 1 (lsumR (map (fun p => fst p * snd p) (combine (scaled data i) (scaled data j)))))).

(** ** The learner *)
(** affinity_mode "full" or "sampled" *)
Inductive affinity := AFull (A : nat -> nat -> R) | ASampled (E : list edge).
Definition partitions (d : nat) (a : affinity) : list (list (list nat)) :=
  match a with AFull A => partitions_full d A | ASampled E => partitions_sampled d E end.

Record poracles := mkPOracles {
  (** leaf estimation (327-330) and torch.rand, as in LearnModel *)
  po_fit : list nat -> nat -> list nat -> dataset -> result leaf;
  po_rnd : list nat -> nat -> nat -> nat -> nat -> nat -> R;
  (** clustering_method(data[:, scope.query]) (382): a label per row *)
  po_clus : list nat -> dataset -> list nat -> list nat;
  (** the affinity or the sampled edges of a cluster (396-407); raises on NaN *)
  po_aff : list nat -> nat -> dataset -> list nat -> result affinity }.
(** the leaves are built as in learn_spn (307-342 is the same as learn_spn.py 270-304) *)
Definition po_base (P : poracles) : oracles := mkOracles (fun _ _ q => q) (fun _ _ data => seq 0 (length data)) (po_fit P) (po_rnd P).

(** 48-55 with max() over the inputs *)
Definition adapt_max (Or : oracles) (path : list nat) (ms : list module) : result (list module) :=
  adapt Or path (list_max (map (fun m => channels (out_shape m)) ms)) 0 ms.

(** 449-452: every channel of a product gets prior / channels *)
Fixpoint spread (priors : list R) (ms : list module) : list R :=
  match priors, ms with
  | p :: ps, m :: rest => let c := channels (out_shape m) in repeat (p / INR c) c ++ spread ps rest
  | _, _ => []
  end.
(** 454-463 *)
Definition mix_products (priors : list R) (ms : list module) : result module :=
  let w := spread priors ms in let tot := lsumR w in let w' := map (fun a => a / tot) w in
  match ms with
  | [m] => Ok m
  | _ => bind (sum_inputs ms) (fun inp => mk_sum_w inp 1 1 (W4 (mkW 1 (length w') 1 1 (fun _ i _ _ => nth i w' 0))))
  end.

Section Prometheus.
Variables (P : poracles) (ps : list proto) (minf mini : nat).
Notation Or := (po_base P).

(** 345-463.  The modules of a cluster are memoised by scope: equal scopes get the same
    call position and so the same result. *)
Fixpoint plearn (fuel : nat) (path : list nat) (data : dataset) (q : list nat) : option (result module) :=
  match fuel with
  | O => None
  | S n =>
      if (Nat.ltb (length q) minf || Nat.ltb (length data) mini)%bool then Some (mv_leaf Or ps path q data)
      else
        let labels := po_clus P path data q in
        obind (omapi (fun k a =>
          let cd := rows_of data labels a in
          if Nat.ltb (length cd) 2 then Some (Ok []) else
          match po_aff P path k cd q with
          | Err => Some Err
          | Ok aff =>
              let parts := partitions (length q) aff in
              obind (omapi (fun j part =>
                obind (omapi (fun _ c => plearn n (k :: length c :: c ++ path) cd (map (fun i => nth i q 0%nat) c)) 0 part) (fun subs =>
                Some (bind (adapt_max Or (j :: k :: path) subs) mk_product))) 0 parts) (fun prods =>
              Some (Ok (map (fun m => (INR (length cd) / INR (length data) / INR (length parts), m)) prods)))
          end) 0 (sortu labels)) (fun groups =>
        let products := concat groups in
        if Nat.eqb (length products) 0 then Some (mv_leaf Or ps path q data)
        else if rleb (lsumR (spread (map fst products) (map snd products))) 0 then Some (mv_leaf Or ps path q data)
        else Some (mix_products (map fst products) (map snd products)))
  end.

(** 288-304: the scope when none is given *)
Definition infer_scope : result (list nat) :=
  match ps with [] => Err | _ => bind (join_all (map (fun p => mkScope (p_scope p) []) ps)) (fun sc => Ok (query sc)) end.
(** 466-602 (the string arguments are valid); leaf_modules is a list *)
Definition learn_prometheus (oc : nat) (fuel : nat) (data : dataset) (q : option (list nat)) : option (result module) :=
  match (match q with None => infer_scope | Some q => Ok q end) with
  | Err => Some Err
  | Ok q =>
      if (Nat.ltb oc 1 || Nat.ltb minf 1 || Nat.ltb mini 1)%bool then Some Err else
      obind (omapi (fun i _ => plearn fuel [i] data q) 0 (seq 0 oc)) (fun ms =>
      match ms with [m] => Some (Ok m) | _ => Some (mk_cat true ms) end)
  end.
End Prometheus.
