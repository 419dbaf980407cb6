(** Specification vocabulary for the SOS model constructors (C265-...). *)
From Coq Require Import List Arith ZArith Bool Reals Permutation.
From Verif Require Import Base ScopeModel CircuitModel Integral LeafModel LeafSpec SignedModel SignedSpec TripleModel ZsModel.
Import ListNotations.
Local Open Scope R_scope.

(** A region tree: leaves hold at least one variable, an inner node has at least
    two children and these divide its variables up between them. *)
Inductive region_tree : tnode -> Prop :=
| rt_leaf sc : sc <> [] -> region_tree (TN sc [])
| rt_node sc ch : (2 <= length ch)%nat -> Permutation sc (flat_map tscope ch) -> Forall region_tree ch -> region_tree (TN sc ch).

(** the variable lists at the leaves *)
Fixpoint tree_leaves (t : tnode) : list (list nat) :=
  match t with
  | TN sc [] => [sc]
  | TN _ ch => (fix go (l : list tnode) : list (list nat) := match l with [] => [] | c :: r => tree_leaves c ++ go r end) ch
  end.

(** no node has both a leaf and an inner node among its children *)
Inductive even_tree : tnode -> Prop :=
| ev_node sc ch : (forall a b, In a ch -> In b ch -> tkids a = [] -> tkids b = []) -> Forall even_tree ch -> even_tree (TN sc ch).

(** the shuffles are permutations *)
Definition shuffling (sh : shuffles) : Prop := forall p l, Permutation (sh p l) l.

(** the variables of pixel (y, x): one per image channel *)
Definition pixel (c h w y x : nat) : list nat := map (fun ch => (ch * (h * w) + y * w + x)%nat) (seq 0 c).

(** arguments the constructors accept, apart from the units *)
Definition good_image (n : nat) (img : option (nat * nat * nat)) : Prop :=
  match img with Some (c, h, w) => (0 < c)%nat /\ (0 < h)%nat /\ (0 < w)%nat /\ (c * h * w = n)%nat | None => True end.
Definition good_graph (rg : region_graph) (img : option (nat * nat * nat)) : Prop :=
  match rg with OtherGraph => False | Qt | Qt2 | Qt4 => img <> None | _ => True end.
(** entries the input layer needs: the number of states, positive if the inputs are signed *)
Definition good_states (a : sos_args) : Prop :=
  match a_layer a with
  | LGaussian => True
  | LOther => False
  | _ => exists k, a_states a = Some k /\ (signed_inputs a = true -> (0 < k)%nat)
  end.

(** torch.rand returns values in [0,1) *)
Definition unit_draws (d : draws) : Prop :=
  (forall p f i o r, 0 <= d_sum d p f i o r < 1) /\ (forall f i o r, 0 <= d_top d f i o r < 1) /\ (forall p f c r k, 0 <= d_state d p f c r k < 1).
(** shuffles are permutations, draws are in [0,1) *)
Definition good_seeds (s : seeds) : Prop := (forall z, shuffling (sh_of s z)) /\ (forall z, unit_draws (dr_of s z)).

(** the region tree of square [i] *)
Definition tree_for (a : sos_args) (s : seeds) (i : nat) (t : tnode) : Prop :=
  build_tree (a_graph a) (a_vars a) (a_img a) (sh_of s (structure_seed (a_seed a) i (a_structured a))) = Ok t.

(** the initial weights and scales are not below the clamping threshold 1e-30 *)
Definition big (w : R) : Prop := / 10 ^ 30 <= Rabs w.
Definition exact_draws (n : nat) (d : draws) : Prop :=
  (forall p f i o r, let w := rand_uniform n (d_sum d p f i o r) in w = 0 \/ big w) /\
  (forall f i o r, let w := rand_uniform n (d_top d f i o r) in w = 0 \/ big w) /\
  (forall p f c r k, big (rand_uniform n (d_state d p f c r k))) /\
  (forall p f c r, big (exp (snd (d_normal d p f c r)))).

(** the values a variable may take, and rows holding such a value in every column *)
Definition var_dom (a : sos_args) : nat -> domain :=
  fun _ => match a_layer a with LGaussian => DReal | _ => DFin (map INR (seq 0 (match a_states a with Some k => k | None => 0%nat end))) end.
Definition full_row (a : sos_args) (x : row) : Prop :=
  forall v, (v < a_vars a)%nat -> exists y, x v = Some y /\ (a_layer a = LGaussian \/ exists k K, a_states a = Some K /\ (k < K)%nat /\ y = INR k).
Definition has_states (a : sos_args) : Prop := a_layer a = LGaussian \/ exists k, a_states a = Some k /\ (0 < k)%nat.

(** a module over the variables 0 .. n-1 with one output value *)
Definition scalar_over (n : nat) (m : smod) : Prop :=
  out_shape (skel m) = mkShape 1 1 1 /\ (forall v, In v (query (scope_of (skel m))) <-> (v < n)%nat) /\ evidence (scope_of (skel m)) = [].
