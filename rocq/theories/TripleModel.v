(** Model of triple products and ExpSOCS: spflow/utils/inner_product_core.py 619-1093,
    spflow/zoo/sos/exp_socs.py.  Same idealisations as SignedModel: reals, one data row
    at a time, all repetition extents equal, memo tables omitted.  NegativeBinomial,
    Histogram and PiecewiseLinear leaf triples are not modelled. *)
From Coq Require Import List Arith ZArith Bool Reals.
From Verif Require Import Base ScopeModel CircuitModel LeafModel SignedModel.
Import ListNotations.
Local Open Scope R_scope.

(** one triple of leaf entries: inner_product_core.py 665-822; [None]: 674-675, 784, 973-975 *)
Definition ltp (a b c : fam) : option R :=
  match a, b, c with
  | FNormal m1 l1, FNormal m2 l2, FNormal m3 l3 => (* 686-701 *)
      let s1 := Rmax (exp l1) tiny in let s2 := Rmax (exp l2) tiny in let s3 := Rmax (exp l3) tiny in
      let t1 := 1 / s1 ^ 2 in let t2 := 1 / s2 ^ 2 in let t3 := 1 / s3 ^ 2 in
      let tau := t1 + t2 + t3 in
      let m := (t1 * m1 + t2 * m2 + t3 * m3) / tau in
      let quad := (t1 * m1 ^ 2 + t2 * m2 ^ 2 + t3 * m3 ^ 2) - tau * m ^ 2 in
      let pref := - ln (2 * PI) - (ln s1 + ln s2 + ln s3) - / 2 * ln tau in
      Some (exp (pref - / 2 * quad))
  | FBernoulli l1, FBernoulli l2, FBernoulli l3 => (* 702-709 *)
      let p1 := sigmoid l1 in let p2 := sigmoid l2 in let p3 := sigmoid l3 in
      Some ((1 - p1) * (1 - p2) * (1 - p3) + p1 * p2 * p3)
  | FCategorical K1 g1, FCategorical K2 g2, FCategorical K3 g3 => (* 673-685 *)
      if (Nat.eqb K1 K2 && Nat.eqb K1 K3)%bool
      then Some (bsum K1 (fun k => softmax K1 g1 k * softmax K2 g2 k * softmax K3 g3 k)) else None
  | FUniform a1 b1, FUniform a2 b2, FUniform a3 b3 => (* 717-730 *)
      Some (Rmax (Rmin (Rmin b1 b2) b3 - Rmax (Rmax a1 a2) a3) 0 / (Rmax (b1 - a1) tiny * Rmax (b2 - a2) tiny * Rmax (b3 - a3) tiny))
  | FGeometric l1, FGeometric l2, FGeometric l3 => (* 731-748; the clamps to [0,1] do nothing *)
      let p1 := sigmoid l1 in let p2 := sigmoid l2 in let p3 := sigmoid l3 in
      Some (p1 * p2 * p3 / Rmax (1 - (1 - p1) * (1 - p2) * (1 - p3)) tiny)
  | FBinomial n1 l1, FBinomial n2 l2, FBinomial n3 l3 => (* 749-770; the unmasked terms *)
      Some (bsum (S (Nat.min (Nat.min n1 n2) n3)) (fun k =>
        exp (binom_logpmf k n1 (sigmoid l1) + binom_logpmf k n2 (sigmoid l2) + binom_logpmf k n3 (sigmoid l3))))
  | FHyper K1 N1 n1, FHyper K2 N2 n2, FHyper K3 N3 n3 => (* 771-822 *)
      if (Nat.eqb N1 N2 && Nat.eqb N1 N3)%bool
      then Some (bsum (S (Nat.min (Nat.min n1 K1) (Nat.min (Nat.min n2 K2) (Nat.min n3 K3)))) (fun k =>
             if (Nat.leb (n1 + K1 - N1) k && Nat.leb (n2 + K2 - N1) k && Nat.leb (n3 + K3 - N1) k)%bool
             then exp (hyper_logpmf k K1 N1 n1 + hyper_logpmf k K2 N1 n2 + hyper_logpmf k K3 N1 n3) else 0))
      else None
  | _, _, _ => None
  end.

(** a leaf's table over [K] states, if it is Categorical or SignedCategorical: 677-680 *)
Definition cat_table (l : sleaf) (f c r : nat) : option (nat * (nat -> R)) :=
  match l with
  | SFam l => match fl_fam l f c r with FCategorical K g => Some (K, softmax K g) | _ => None end
  | SSC _ _ _ K w => Some (K, w f c r)
  end.
(** 667-685 if all three are categorical or signed categorical, else the families *)
Definition stp (la lb lc : sleaf) (f ca cb cc r : nat) : option R :=
  match cat_table la f ca r, cat_table lb f cb r, cat_table lc f cc r with
  | Some (K1, p1), Some (K2, p2), Some (K3, p3) =>
      if (Nat.eqb K1 K2 && Nat.eqb K1 K3)%bool then Some (bsum K1 (fun k => p1 k * p2 k * p3 k)) else None
  | _, _, _ =>
      match la, lb, lc with
      | SFam a, SFam b, SFam c => ltp (fl_fam a f ca r) (fl_fam b f cb r) (fl_fam c f cc r)
      | _, _, _ => None
      end
  end.

Definition T5 := nat -> nat -> nat -> nat -> nat -> R.
Definition stpv (la lb lc : sleaf) : T5 := fun f ca cb cc r => match stp la lb lc f ca cb cc r with Some v => v | None => 0 end.
(** every entry of the three leaves is a supported triple *)
Definition stp_ok (la lb lc : sleaf) : bool :=
  allb (length (query (sl_scope la))) (fun f => allb (sl_ch la) (fun ca => allb (sl_ch lb) (fun cb => allb (sl_ch lc) (fun cc =>
    allb (sl_rep la) (fun r => match stp la lb lc f ca cb cc r with Some _ => true | None => false end))))).

(** einsum "fiar,fjbr,fkcr,fijkr->fabcr": 1071 *)
Definition sum_rule3 (n1 n2 n3 : nat) (wa wb wc : nat -> nat -> nat -> nat -> R) (k : T5) : T5 := fun f a b c r =>
  bsum n1 (fun i => bsum n2 (fun j => bsum n3 (fun l => wa f i a r * wb f j b r * wc f l c r * k f i j l r))).

(** triple_product_tensor on supported triples, the value at leaf triples abstracted: 981-1074 *)
Fixpoint tp3 (L : sleaf -> sleaf -> sleaf -> T5) (a b c : smod) {struct a} : T5 :=
  match a with
  | SLeaf la => match b, c with SLeaf lb, SLeaf lc => L la lb lc | _, _ => fun _ _ _ _ _ => 0 end
  | SSum a' _ _ lg => (* 1058-1074 *)
      match as_sum b, as_sum c with
      | Some (b', wb), Some (c', wc) =>
          sum_rule3 (schan a') (schan b') (schan c') (fun f i o r => softmax (schan a') (fun j => lg f j o r) i) wb wc (tp3 L a' b' c')
      | _, _ => fun _ _ _ _ _ => 0
      end
  | SSigned a' _ _ w =>
      match as_sum b, as_sum c with
      | Some (b', wb), Some (c', wc) => sum_rule3 (schan a') (schan b') (schan c') w wb wc (tp3 L a' b' c')
      | _, _ => fun _ _ _ _ _ => 0
      end
  | SCat d2 _ cs =>
      match b, c with
      | SCat _ _ ds, SCat _ _ es =>
          let gs := map (fun c => (sdim d2 c, tp3 L c)) cs in
          if d2
          then fun f ca cb cc r => (* 1004-1040 *)
                 match pick fst gs ca, pick (sdim true) ds cb, pick (sdim true) es cc with
                 | Some (g, i), Some (d, j), Some (e, k) => snd g d e f i j k r
                 | _, _, _ => 0
                 end
          else fun f ca cb cc r => (* 985-1002 *)
                 match pick (fun p => fst (fst p)) (combine gs (combine ds es)) f with
                 | Some (p, k) => snd (fst p) (fst (snd p)) (snd (snd p)) k ca cb cc r
                 | None => 0
                 end
      | _, _ => fun _ _ _ _ _ => 0
      end
  | SProduct a' =>
      match b, c with
      | SProduct b', SProduct c' => fun _ ca cb cc r => bprod (sfeat a') (fun f => tp3 L a' b' c' f ca cb cc r) (* 1044-1056 *)
      | _, _ => fun _ _ _ _ _ => 0
      end
  end.

(** the triples accepted: 640-648 and the case distinctions of 665-1078 *)
Fixpoint tp_ok (a b c : smod) {struct a} : bool :=
  (same_header a b && same_header a c &&
   match a with
   | SLeaf la => match b, c with SLeaf lb, SLeaf lc => stp_ok la lb lc | _, _ => false end
   | SSum a' _ _ _ => match as_sum b, as_sum c with Some (b', _), Some (c', _) => tp_ok a' b' c' | _, _ => false end
   | SSigned a' _ _ _ => match as_sum b, as_sum c with Some (b', _), Some (c', _) => tp_ok a' b' c' | _, _ => false end
   | SCat d2 _ cs =>
       match b, c with
       | SCat d2b _ ds, SCat d2c _ es =>
           Bool.eqb d2 d2b && Bool.eqb d2 d2c &&
           let gs := map tp_ok cs in
           if d2 then forallb (fun g => forallb (fun d => forallb (g d) es) ds) gs
           else Nat.eqb (length cs) (length ds) && Nat.eqb (length cs) (length es)
                && forallb (fun p => fst p (fst (snd p)) (snd (snd p))) (combine gs (combine ds es))
       | _, _ => false
       end
   | SProduct a' => match b, c with SProduct b', SProduct c' => tp_ok a' b' c' | _, _ => false end
   end)%bool.
Definition triple_product_tensor (a b c : smod) : result T5 := if tp_ok a b c then Ok (tp3 stpv a b c) else Err.

(** 1081-1093 *)
Definition scalar_shape (m : smod) : bool := shape_eqb (out_shape (skel m)) (mkShape 1 1 1).
Definition triple_product_scalar (a b c : smod) : result R :=
  if (scalar_shape a && scalar_shape b && scalar_shape c)%bool
  then bind (triple_product_tensor a b c) (fun t => Ok (t 0 0 0 0 0)%nat) else Err.

(** ** exp_socs.py *)
Record expsocs := mkExp { x_mono : smod; x_comps : list smod }.
(** 38-61 *)
Definition mk_expsocs (mono : smod) (cs : list smod) : result expsocs :=
  match cs with
  | [] => Err
  | _ => if negb (scalar_shape mono) then Err
         else if forallb (fun c => scalar_shape c && scope_eqb (scope_of (skel c)) (scope_of (skel mono)))%bool cs
         then Ok (mkExp mono cs) else Err
  end.
(** 67-80: Z before clamping *)
Definition exp_Z (e : expsocs) : result R :=
  bind (mapR (fun c => triple_product_scalar c c (x_mono e)) (x_comps e)) (fun zs => Ok (lsumR zs)).
(** 86-98 *)
Definition exp_ll (e : expsocs) (x : row) : result lval :=
  bind (mll x (x_mono e)) (fun tm =>
  bind (mapR (seval x) (x_comps e)) (fun ts =>
  bind (exp_Z e) (fun Z =>
    Ok (lsub_R (ladd (tm 0 0 0)%nat (lse (length ts) (fun i => ldouble (fst (nth i ts (fun _ _ _ => (NInf, 0%Z)) 0%nat 0%nat 0%nat)))))
               (ln (Rmax (Rmax Z 0) tiny)))))).
(** 109-126 *)
Definition exp_marg (S : list nat) (prune : bool) (e : expsocs) : result (option expsocs) :=
  bind (smarg S prune (x_mono e)) (fun om =>
    match om with
    | None => Ok None
    | Some mono =>
        bind ((fix go (l : list smod) : result (option (list smod)) :=
                 match l with
                 | [] => Ok (Some [])
                 | c :: rest => bind (smarg S prune c) (fun oc =>
                     match oc with
                     | None => Ok None
                     | Some c' => bind (go rest) (fun r => Ok (match r with Some r => Some (c' :: r) | None => None end))
                     end)
                 end) (x_comps e)) (fun r =>
          match r with None => Ok None | Some cs => bind (mk_expsocs mono cs) (fun e' => Ok (Some e')) end)
    end).
