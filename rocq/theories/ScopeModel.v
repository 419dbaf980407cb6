(** Model of spflow/meta/data/scope.py (class Scope). *)
From Coq Require Import List ZArith Arith Bool.
From Verif Require Import Base.
Import ListNotations.

(** scope.py 25-26: the two fields; a successfully constructed Scope holds
    non-negative integers only (70-74), hence [nat]. *)
Record scope := mkScope { query : list nat; evidence : list nat }.

Definition memb (v : nat) (l : list nat) : bool := existsb (Nat.eqb v) l.

(** Python [set(a).isdisjoint(b)] *)
Definition disjb (a b : list nat) : bool := forallb (fun v => negb (memb v b)) a.

(** Python [set(a) <= set(b)] *)
Definition subb (a b : list nat) : bool := forallb (fun v => memb v b) a.

(** [len(x) != len(set(x))] (76, 79) *)
Definition has_dup (l : list nat) : bool :=
  negb (Nat.eqb (length l) (length (nodup Nat.eq_dec l))).

(** scope.py 65-89 on non-negative integers.  The order of the checks is kept;
    all raise InvalidParameterError, one [Err] stands for it. *)
Definition scope_init_nat (q e : list nat) : result scope :=
  if (Nat.eqb (length q) 0 && negb (Nat.eqb (length e) 0))%bool then Err
  else if has_dup q then Err
  else if has_dup e then Err
  else if negb (disjb q e) then Err
  else Ok (mkScope q e).

(** scope.py 28-89 after normalisation of the argument types (47-63: None, int
    and other iterables become lists). *)
Definition scope_init (q e : list Z) : result scope :=
  if (Nat.eqb (length q) 0 && negb (Nat.eqb (length e) 0))%bool then Err
  else if existsb (fun v => Z.ltb v 0) q then Err
  else if existsb (fun v => Z.ltb v 0) e then Err
  else scope_init_nat (map Z.to_nat q) (map Z.to_nat e).

(** 144-155, 157-168, 108-119 *)
Definition set_eqb (a b : list nat) : bool := subb a b && subb b a.
Definition equal_query (s t : scope) : bool := set_eqb (query s) (query t).
Definition equal_evidence (s t : scope) : bool := set_eqb (evidence s) (evidence t).
Definition scope_eqb (s t : scope) : bool := equal_query s t && equal_evidence s t.

(** 170-178, 190-201 *)
Definition scope_empty (s : scope) : bool := match query s with [] => true | _ => false end.
Definition isdisjoint (s t : scope) : bool := disjb (query s) (query t).

(** Python [sorted(set(l))]: insertion into a strictly increasing list. *)
Fixpoint insu (x : nat) (l : list nat) : list nat :=
  match l with
  | [] => [x]
  | y :: r => if Nat.ltb x y then x :: l else if Nat.eqb x y then l else y :: insu x r
  end.
Definition sortu (l : list nat) : list nat := fold_right insu [] l.

(** 203-226 *)
Definition join (s t : scope) : result scope :=
  let nq := query s ++ query t in
  let ne := filter (fun v => negb (memb v nq)) (evidence s ++ evidence t) in
  scope_init_nat (sortu nq) (sortu ne).

(** 242-254: functools.reduce without initial value; TypeError on [] *)
Fixpoint join_from (acc : scope) (l : list scope) : result scope :=
  match l with
  | [] => Ok acc
  | s :: r => bind (join acc s) (fun acc' => join_from acc' r)
  end.
Definition join_all (l : list scope) : result scope :=
  match l with [] => Err | s :: r => join_from s r end.

(** 256-278 *)
Fixpoint apd_loop (overall : option scope) (l : list scope) : result bool :=
  match l with
  | [] => Ok true
  | s :: r =>
      match overall with
      | None => apd_loop (Some s) r
      | Some o => if isdisjoint o s then bind (join o s) (fun o' => apd_loop (Some o') r) else Ok false
      end
  end.
Definition all_pairwise_disjoint (l : list scope) : result bool := apd_loop None l.

(** 280-299 *)
Fixpoint ae_loop (overall : option scope) (l : list scope) : bool :=
  match l with
  | [] => true
  | s :: r =>
      match overall with
      | None => ae_loop (Some s) r
      | Some o => if negb (scope_eqb o s) then false else ae_loop (Some o) r
      end
  end.
Definition all_equal (l : list scope) : bool := ae_loop None l.

(** [list.remove]: first occurrence, ValueError if absent *)
Fixpoint list_remove (v : nat) (l : list nat) : result (list nat) :=
  match l with
  | [] => Err
  | x :: r => if Nat.eqb x v then Ok r else bind (list_remove v r) (fun r' => Ok (x :: r'))
  end.

(** 129-142 *)
Definition remove_from_query (s : scope) (v : nat) : result scope :=
  bind (list_remove v (query s)) (fun q => scope_init_nat q (evidence s)).

(** 301-307 *)
Definition scope_copy (s : scope) : result scope := scope_init_nat (query s) (evidence s).

(** Hash.  [@dataclass(frozen=True)] (12) with a hand-written [__eq__] and no
    [__hash__] makes the dataclass machinery add
    [__hash__ = hash((self.query, self.evidence))], i.e. CPython's tuple hash
    (Objects/tupleobject.c, xxHash based, 64 bit) of the two tuples in field
    order; the hash of a small non-negative int is the int itself. *)
Definition M64 : Z := 2 ^ 64.
Definition XP1 : Z := 11400714785074694791.
Definition XP2 : Z := 14029467366897019727.
Definition XP5 : Z := 2870177450012600261.
Definition rotl31 (x : Z) : Z := Z.lor (Z.modulo (Z.shiftl x 31) M64) (Z.shiftr x 33).
Definition tuplehash (lanes : list Z) : Z :=
  let acc := fold_left (fun acc lane => Z.modulo (rotl31 (Z.modulo (acc + lane * XP2) M64) * XP1) M64) lanes XP5 in
  let acc := Z.modulo (acc + Z.lxor (Z.of_nat (length lanes)) (Z.lxor XP5 3527539)) M64 in
  if Z.eqb acc (M64 - 1) then 1546275796%Z else acc.
Definition scope_hash (s : scope) : Z :=
  tuplehash [tuplehash (map Z.of_nat (query s)); tuplehash (map Z.of_nat (evidence s))].
