(** What compatibility means: two circuits look alike at every path the check follows. *)
From Coq Require Import List Arith Bool.
From Verif Require Import Base ScopeModel CircuitModel CompatModel.
Import ListNotations.

(** the module reached from the root by a path of input indices, through Cat, Sum,
    SignedSum and Product modules *)
Fixpoint at_path (m : cmod) (p : list nat) : option cmod :=
  match p with
  | [] => Some m
  | i :: p => match nth_error (match ckind m with KCat _ | KSum | KMixing | KSigned | KProduct => cins m | _ => [] end) i with
              | Some c => at_path c p
              | None => None
              end
  end.
(** same class (with the same Cat dimension, number of states, tree), same scope, same shape *)
Definition alike (a b : cmod) : Prop :=
  ckind a = ckind b /\
  (forall v, In v (query (cscope a)) <-> In v (query (cscope b))) /\ (forall v, In v (evidence (cscope a)) <-> In v (evidence (cscope b))) /\
  cshape a = cshape b.
Definition same_skeleton (a b : cmod) : Prop :=
  forall p, match at_path a p, at_path b p with
            | Some x, Some y => alike x y
            | None, None => True
            | _, _ => False
            end.
(** every module below [m] *)
Inductive below (m : cmod) : cmod -> Prop :=
| below_self : below m m
| below_in c d : In c (cins m) -> below c d -> below m d.
(** identities identify objects *)
Definition ids_ok (a b : cmod) : Prop :=
  (forall x y, below a x -> below a y -> cid x = cid y -> x = y) /\ (forall x y, below b x -> below b y -> cid x = cid y -> x = y).
