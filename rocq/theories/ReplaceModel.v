(** Model of spflow/utils/replace.py over a small object model of Python classes. *)
From Coq Require Import List Arith Bool.
From Verif Require Import Base.
Import ListNotations.

(** Names of attributes, class names, modules and classes are numbers. *)
(** A Python function object, as far as replace.py inspects it: its identity, its
    [__name__], the class part of its [__qualname__] ([None]: no dot), the module
    [inspect.getmodule] finds, and whether it has [__wrapped__]. *)
Record func := mkFunc { f_id : nat; f_name : nat; f_qual : option nat; f_mod : nat; f_wrapped : bool }.

(** An entry of a class dictionary: a plain function or a [staticmethod] around one. *)
Inductive raw := Plain (f : func) | Static (f : func).
Definition unraw (a : raw) : func := match a with Plain f => f | Static f => f end.

(** The world: own dictionary of each class, its method resolution order (beginning
    with itself), and the classes bound to names in each module. *)
Record world := mkWorld { w_own : nat -> nat -> option raw; w_mro : nat -> list nat; w_class : nat -> nat -> option nat }.

(** [getattr(C, n)]: the first owner in the mro *)
Fixpoint lookup_in (w : world) (l : list nat) (n : nat) : option raw :=
  match l with
  | [] => None
  | c :: r => match w_own w c n with Some a => Some a | None => lookup_in w r n end
  end.
Definition getattr (w : world) (c n : nat) : option func := option_map unraw (lookup_in w (w_mro w c) n).
(** [setattr(C, n, f)] *)
Definition setattr (w : world) (c n : nat) (f : func) : world :=
  mkWorld (fun c' n' => if (Nat.eqb c' c && Nat.eqb n' n)%bool then Some (Plain f) else w_own w c' n')
    (w_mro w) (w_class w).

(** [cached(f)] (cache.py, [functools.wraps]): a new function with the name, qualname
    and module of [f] and a [__wrapped__] attribute.  [S] stands for the new identity. *)
Definition cached (f : func) : func := mkFunc (S (f_id f)) (f_name f) (f_qual f) (f_mod f) true.

(** replace.py 85-135; the [callable]/[__name__] checks (99-105) always pass on a [func] *)
Definition extract (w : world) (m : func) : result (nat * nat) :=
  match f_qual m with
  | None => Err
  | Some q => match w_class w (f_mod m) q with None => Err | Some c => Ok (c, f_name m) end
  end.

(** The calling program: a [with replace(ref, f): body] statement whose reference is
    either a function captured earlier or an attribute read when the statement runs;
    sequencing; raising; and reading an attribute (the observations are logged). *)
Inductive mref := Captured (m : func) | Attr (c n : nat).
Inductive cmd :=
| Skip
| Throw
| Seq (a b : cmd)
| Read (c n : nat)
| With (r : mref) (f : func) (body : cmd).

Definition resolve (w : world) (r : mref) : result func :=
  match r with
  | Captured m => Ok m
  | Attr c n => match getattr w c n with Some m => Ok m | None => Err end
  end.

(** Result of a command: final world, observations, and whether it ended by an exception.
    [With] is replace.py 56-82: entering fails before any change if the extraction or
    [getattr] fails; otherwise the attribute is set (76), the body runs, and the
    [finally] block (80-82) sets the original again in both cases. *)
Fixpoint exec (k : cmd) (w : world) : world * list (option func) * bool :=
  match k with
  | Skip => (w, [], false)
  | Throw => (w, [], true)
  | Read c n => (w, [getattr w c n], false)
  | Seq a b =>
      let '(w1, l1, e1) := exec a w in
      if e1 then (w1, l1, true) else let '(w2, l2, e2) := exec b w1 in (w2, l1 ++ l2, e2)
  | With r f body =>
      match resolve w r with
      | Err => (w, [], true)
      | Ok m =>
          match extract w m with
          | Err => (w, [], true)
          | Ok (c, n) =>
              match getattr w c n with
              | None => (w, [], true)
              | Some orig =>
                  let new := if f_wrapped orig then cached f else f in
                  let '(w1, l, e) := exec body (setattr w c n new) in
                  (setattr w1 c n orig, l, e)
              end
          end
      end
  end.
Definition after (k : cmd) (w : world) : world := fst (fst (exec k w)).
Definition seen (k : cmd) (w : world) : list (option func) := snd (fst (exec k w)).
Definition raised (k : cmd) (w : world) : bool := snd (exec k w).
