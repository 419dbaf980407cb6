(** What the DSL promises, stated without its data structures. *)
From Coq Require Import List Arith Bool Lia.
From Verif Require Import Base ScopeModel CircuitModel CircuitEval DslModel.
Import ListNotations.
Local Open Scope R_scope.

(** The value of a source expression read as arithmetic: a module stands for its
    density at the given channel and repetition. *)
Fixpoint arith (d : module -> R) (p : src) : R :=
  match p with
  | SNum a => a
  | SMod m | STerm m => d m
  | SMul p q | SW p q => arith d p * arith d q
  | SAdd p q => arith d p + arith d q
  end.

(** the total weight: the same arithmetic with every density replaced by 1 *)
Definition total (p : src) : R := arith (fun _ => 1) p.

Fixpoint mods (p : src) : list module :=
  match p with
  | SNum _ => []
  | SMod m | STerm m => [m]
  | SMul p q | SW p q | SAdd p q => mods p ++ mods q
  end.

(** every mixture that is multiplied by something has weights summing to one *)
Fixpoint inner_normalised (p : src) : Prop :=
  match p with
  | SNum _ | SMod _ | STerm _ => True
  | SMul p q | SW p q =>
      inner_normalised p /\ inner_normalised q /\
      (forall a b, p = SAdd a b -> mods p <> [] -> total p = 1) /\
      (forall a b, q = SAdd a b -> mods q <> [] -> total q = 1)
  | SAdd p q => inner_normalised p /\ inner_normalised q
  end.

(** Which expressions denote a circuit. *)
Fixpoint evar (e : expr) (v : nat) : Prop :=
  match e with
  | ETerm m => In v (query (scope_of m))
  | EProd fs => (fix any l := match l with [] => False | f :: r => evar f v \/ any r end) fs
  | EWtd _ e => evar e v
  | ESum ts => match ts with [] => False | (_, e) :: _ => evar e v end
  end.
Fixpoint eevid (e : expr) (v : nat) : Prop :=
  match e with
  | ETerm m => In v (evidence (scope_of m))
  | EProd fs => (fix any l := match l with [] => False | f :: r => eevid f v \/ any r end) fs /\ ~ evar e v
  | EWtd _ e => eevid e v
  | ESum ts => match ts with [] => False | (_, e) :: _ => eevid e v end
  end.
Fixpoint eshape (e : expr) : shape :=
  match e with
  | ETerm m => out_shape m
  | EProd fs => match fs with [] => mkShape 1 0 0 | f :: _ => mkShape 1 (channels (eshape f)) (repetitions (eshape f)) end
  | EWtd _ e => eshape e
  | ESum ts => match ts with [] => mkShape 0 0 0 | (_, e) :: _ => mkShape (features (eshape e)) 1 (repetitions (eshape e)) end
  end.

Definition same {A B} (f : A -> B) (l : list A) : Prop := forall x y, In x l -> In y l -> f x = f y.

Inductive wellformed : expr -> Prop :=
| wf_term m : wellformed (ETerm m)
| wf_prod fs : (2 <= length fs)%nat -> Forall wellformed fs ->
    ForallOrdPairs (fun a b => forall v, evar a v -> ~ evar b v) fs ->
    same (fun e => channels (eshape e)) fs -> same (fun e => repetitions (eshape e)) fs ->
    wellformed (EProd fs)
| wf_sum (ts : list (R * expr)) : (2 <= length ts)%nat -> Forall (fun t => 0 < fst t) ts -> Forall wellformed (map snd ts) ->
    (forall a b, In a (map snd ts) -> In b (map snd ts) -> forall v, (evar a v <-> evar b v) /\ (eevid a v <-> eevid b v)) ->
    same (fun e => features (eshape e)) (map snd ts) ->
    Forall (fun e => channels (eshape e) = 1%nat) (map snd ts) -> same (fun e => repetitions (eshape e)) (map snd ts) ->
    wellformed (ESum ts).

Fixpoint emods (e : expr) : list module :=
  match e with
  | ETerm m => [m]
  | EProd fs => (fix all l := match l with [] => [] | f :: r => emods f ++ all r end) fs
  | EWtd _ e => emods e
  | ESum ts => (fix all l := match l with [] => [] | (_, f) :: r => emods f ++ all r end) ts
  end.

(** The labels of the uses written outside / inside a [with dsl()] block. *)
Fixpoint uses (inside : bool) (p : prog) (i : nat) : Prop :=
  match p with
  | PSkip | PRaise => False
  | PUse j => inside = false /\ i = j
  | PSeq p q | PTry p q => uses inside p i \/ uses inside q i
  | PWith p => if inside then uses true p i \/ uses false p i else False
  end.

(** Properly nested entering and leaving of contexts. *)
Inductive nested : list event -> Prop :=
| n_nil : nested []
| n_wrap k l : nested l -> ~ In (Enter k) l -> nested (Enter k :: l ++ [Exit k])
| n_app l l' : nested l -> nested l' -> nested (l ++ l').
