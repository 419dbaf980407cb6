(** Model of the joint encoder of an APC:
    spflow/zoo/apc/encoders/joint_pc_base.py 46-131, 241-275 and
    spflow/zoo/apc/encoders/einet_joint_encoder.py 40-122 (the circuit is an Einet
    over the concatenation of the data block X and the latent block Z). *)
From Coq Require Import List Arith Bool Reals.
From Verif Require Import Base ScopeModel CircuitModel LayerModel EmModel FactorModel StackModel.
Import ListNotations.
Local Open Scope R_scope.

(** The encoder: block widths and the circuit.  Columns are variable ids: X is
    0..nx-1, Z is nx..nx+nz-1 (einet_joint_encoder.py 81-82). *)
Record jenc := mkJenc { je_nx : nat; je_nz : nat; je_st : stack }.

Definition x_cols (nx : nat) : list nat := seq 0 nx.
Definition z_cols (nx nz : nat) : list nat := seq nx nz.

Definition mem (v : nat) (l : list nat) : bool := existsb (Nat.eqb v) l.
(** joint_pc_base.py 57-69: same set, same length *)
Definition scope_fits (l : leaf) (expected : list nat) : bool :=
  let q := query (l_scope l) in
  (forallb (fun v => mem v expected) q && forallb (fun v => mem v q) expected && Nat.eqb (length q) (length expected))%bool.

(** einet_joint_encoder.py 43-105; num_classes=1, structure="top-down" *)
Definition mk_joint_encoder (nx nz : nat) (xl zl : leaf) (c : ein_cfg) (p : ein_par) (d : draw) : result jenc :=
  if Nat.eqb nx 0 then Err else if Nat.eqb nz 0 then Err
  else if negb (scope_fits xl (x_cols nx)) then Err
  else if negb (scope_fits zl (z_cols nx nz)) then Err
  else match mk_einet [MLeaf xl; MLeaf zl]
               (mkEin 1 (ei_sums c) (ei_leaves c) (ei_depth c) (ei_reps c) (ei_type c) true) p d with
       | Ok st => Ok (mkJenc nx nz st)
       | Err => Err
       end.

(** joint_pc_base.py 79-131 for one row: [None] cells are NaN; a missing block is
    all NaN; the blocks are concatenated *)
Definition block (n : nat) (b : option (list (option R))) : list (option R) :=
  match b with Some l => l | None => repeat None n end.
Definition evidence_row (e : jenc) (x z : option (list (option R))) : row :=
  fun v => nth v (block (je_nx e) x ++ block (je_nz e) z) None.

(** joint_pc_base.py 133-145 on a circuit with one output *)
Definition enc_ll (e : jenc) (r : row) : result fl :=
  bind (stack_ll (je_st e) r) (fun t => Ok (nval t 0 0 0)).

(** 263-270 with the width checks of _flatten_x, _flatten_z (einet_joint_encoder.py 107-122) *)
Definition joint_log_likelihood (e : jenc) (x z : list (option R)) : result fl :=
  if negb (Nat.eqb (length x) (je_nx e)) then Err
  else if negb (Nat.eqb (length z) (je_nz e)) then Err
  else enc_ll e (evidence_row e (Some x) (Some z)).
(** 271-276 *)
Definition log_likelihood_x (e : jenc) (x : list (option R)) : result fl :=
  if negb (Nat.eqb (length x) (je_nx e)) then Err
  else enc_ll e (evidence_row e (Some x) None).
