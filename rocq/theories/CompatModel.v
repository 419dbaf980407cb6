(** Model of spflow/utils/compatibility.py.  Modules are finite graphs seen from their
    roots: [c_id] is the object's identity, shared submodules carry the same one. *)
From Coq Require Import List Arith Bool.
From Verif Require Import Base ScopeModel CircuitModel LeafModel SignedModel.
Import ListNotations.

(** the class of a module with the attributes the check reads *)
Inductive kind :=
| KCat (dim : nat) | KSum | KMixing (* RepetitionMixingLayer, a subclass of Sum *) | KSigned | KProduct
| KCategorical (K : nat) | KSignedCat (K : nat) | KCLTree (K : nat) (parents : list nat)
| KLeaf (cls : nat) (* any other leaf class *)
| KOther (cls : nat) (* any other module class *).
Inductive cmod := CM (c_id : nat) (c_kind : kind) (c_scope : scope) (c_shape : shape) (c_ins : list cmod).
Definition cid (m : cmod) := match m with CM i _ _ _ _ => i end.
Definition ckind (m : cmod) := match m with CM _ k _ _ _ => k end.
Definition cscope (m : cmod) := match m with CM _ _ s _ _ => s end.
Definition cshape (m : cmod) := match m with CM _ _ _ s _ => s end.
Definition cins (m : cmod) := match m with CM _ _ _ _ l => l end.

(** 49-57 *)
Definition looks_inside (k : kind) : bool :=
  match k with KCat _ | KSum | KMixing | KSigned | KProduct => true | _ => false end.
Definition children (m : cmod) : list cmod := if looks_inside (ckind m) then cins m else [].

(** 69-70: type(a) is type(b) *)
Definition same_type (a b : kind) : bool :=
  match a, b with
  | KCat _, KCat _ | KSum, KSum | KMixing, KMixing | KSigned, KSigned | KProduct, KProduct
  | KCategorical _, KCategorical _ | KSignedCat _, KSignedCat _ | KCLTree _ _, KCLTree _ _ => true
  | KLeaf c, KLeaf d | KOther c, KOther d => Nat.eqb c d
  | _, _ => false
  end.
Definition nats_eqb (l l' : list nat) : bool := if list_eq_dec Nat.eq_dec l l' then true else false.

(** 69-107, without the recursion: no exception *)
Definition local_ok (a b : cmod) : bool :=
  (same_type (ckind a) (ckind b) && scope_eqb (cscope a) (cscope b) && shape_eqb (cshape a) (cshape b) &&
   match ckind a, ckind b with
   | KCat d, KCat e => Nat.eqb d e && Nat.eqb (length (cins a)) (length (cins b)) (* 78-84 *)
   | KCategorical K, KCategorical L => Nat.eqb K L (* 86-88 *)
   | KSignedCat K, KSignedCat L => Nat.eqb K L (* 90-94 *)
   | KCLTree K p, KCLTree L q => Nat.eqb K L && nats_eqb p q (* 96-101 *)
   | _, _ => true
   end &&
   Nat.eqb (length (children a)) (length (children b)))%bool. (* 104-107 *)

Definition visited := list (nat * nat).
Definition seen (v : visited) (a b : cmod) : bool := existsb (fun p => Nat.eqb (fst p) (cid a) && Nat.eqb (snd p) (cid b))%bool v.
(** _check_pair: 64-109; [Err] is an exception, [Ok v] the visited set afterwards *)
Fixpoint check_pair (a b : cmod) (v : visited) {struct a} : result visited :=
  if seen v a b then Ok v
  else if local_ok a b then
    match a with CM i k _ _ l =>
      if looks_inside k
      then (fix go (l : list cmod) (l' : list cmod) (v : visited) : result visited :=
              match l, l' with
              | c :: r, d :: r' => bind (check_pair c d v) (fun v => go r r' v)
              | _, _ => Ok v
              end) l (cins b) ((cid a, cid b) :: v)
      else Ok ((cid a, cid b) :: v)
    end
  else Err.

(** 112-119 *)
Definition check_compatible_components (cs : list cmod) : result unit :=
  match cs with
  | ref :: others => if forallb (fun o => match check_pair ref o [] with Ok _ => true | Err => false end) others then Ok tt else Err
  | [] => Ok tt
  end.

(** how a circuit of the modelled signed modules looks to the check; [lab] gives the
    identity of the object at each path from the root *)
Definition kind_of_fam (f : fam) : kind :=
  match f with
  | FCategorical K _ => KCategorical K
  | FBernoulli _ => KLeaf 0 | FBinomial _ _ => KLeaf 1 | FGeometric _ => KLeaf 2 | FPoisson _ => KLeaf 3
  | FNegBin _ _ => KLeaf 4 | FHyper _ _ _ => KLeaf 5 | FUniform _ _ => KLeaf 6 | FExponential _ => KLeaf 7
  | FLaplace _ _ => KLeaf 8 | FNormal _ _ => KLeaf 9
  end.
Definition kind_of_leaf (l : sleaf) : kind :=
  match l with SFam l => kind_of_fam (fl_fam l 0 0 0) | SSC _ _ _ K _ => KSignedCat K end.
Fixpoint view (lab : list nat -> nat) (m : smod) {struct m} : cmod :=
  CM (lab [])
     (match m with SLeaf l => kind_of_leaf l | SSum _ _ _ _ => KSum | SSigned _ _ _ _ => KSigned | SCat d2 _ _ => KCat (if d2 then 2 else 1) | SProduct _ => KProduct end)
     (scope_of (skel m)) (out_shape (skel m))
     (match m with
      | SLeaf _ => []
      | SSum c _ _ _ | SSigned c _ _ _ | SProduct c => [view (fun p => lab (0 :: p)) c]
      | SCat _ _ cs => (fix go (i : nat) (l : list smod) : list cmod :=
                          match l with [] => [] | c :: r => view (fun p => lab (i :: p)) c :: go (S i) r end) 0 cs
      end).
