(** C265 (shape) and C282: region trees of the SOS models and the seeds of their components. *)
From Coq Require Import List Arith ZArith Bool Reals Lia Permutation.
From Verif Require Import Base ScopeModel CircuitModel LeafModel SignedModel TripleModel ZsModel ZsSpec ZsTree ZsMain ZsShape P_Zs.
Import ListNotations.
Local Open Scope nat_scope.

(** C265: random binary trees halve the variables, linear trees split off one variable at a
    time (lt: in the order 0, 1, ...), qt-2 halves the longer side of a patch, qt and qt-4
    cut it into quadrants (a row or column of pixels into halves) *)
Theorem C265_shape : forall rg n img sh t, 0 < n -> good_image n img -> shuffling sh -> build_tree rg n img sh = Ok t ->
  match rg, img with
  | RndBt, _ => halving t
  | RndLt, _ => chain t
  | Lt, _ => chain t /\ tscope t = seq 0 n
  | Qt2, Some (c, h, w) => rect2 c h w 0 h 0 w t
  | (Qt | Qt4), Some (c, h, w) => rect4 c h w 0 h 0 w t
  | _, _ => False
  end.
Proof. exact tree_shape. Qed.
Print Assumptions C265_shape.
Example C265_shape_image : good_image 6 (Some (1, 2, 3)) /\ build_tree Qt2 6 (Some (1, 2, 3)) (fun _ l => l) =
  Ok (TN [0; 1; 2; 3; 4; 5] [TN [0; 3] [TN [0] []; TN [3] []]; TN [1; 2; 4; 5] [TN [1; 2] [TN [1] []; TN [2] []]; TN [4; 5] [TN [4] []; TN [5] []]]]).
Proof. split; [cbn; lia|reflexivity]. Qed.

(** C282: each component only depends on the generator of its own seed (and the shuffles), and
    different components have different seeds: model seed + 10000 + j for SOSModel, + 20000
    for the monotone circuit and + 21000 + j for the components of ExpSOSModel *)
Theorem C282_sos_seeds : forall a s s' cs cs' j, sh_of s = sh_of s' -> sos_model a s = Ok cs -> sos_model a s' = Ok cs' ->
  dr_of s (a_seed a + 10000 + Z.of_nat j)%Z = dr_of s' (a_seed a + 10000 + Z.of_nat j)%Z -> nth_error cs j = nth_error cs' j.
Proof. exact sos_seeds. Qed.
Theorem C282_exp_seeds : forall a s s' e e', sh_of s = sh_of s' -> exp_sos_model a s = Ok e -> exp_sos_model a s' = Ok e' ->
  (dr_of s (a_seed a + 20000)%Z = dr_of s' (a_seed a + 20000)%Z -> x_mono e = x_mono e') /\
  forall j, dr_of s (a_seed a + 21000 + Z.of_nat j)%Z = dr_of s' (a_seed a + 21000 + Z.of_nat j)%Z -> nth_error (x_comps e) j = nth_error (x_comps e') j.
Proof. exact exp_seeds. Qed.
Print Assumptions C282_sos_seeds.
Print Assumptions C282_exp_seeds.
(** two runs that share the shuffles and the generator of component 3 only *)
Example C282_nonvacuous : exists s' cs cs', sh_of sd0 = sh_of s' /\ sos_model (args RndBt 5 3 3 None true true) sd0 = Ok cs /\ sos_model (args RndBt 5 3 3 None true true) s' = Ok cs' /\
  dr_of sd0 (a_seed (args RndBt 5 3 3 None true true) + 10000 + Z.of_nat 3)%Z = dr_of s' (a_seed (args RndBt 5 3 3 None true true) + 10000 + Z.of_nat 3)%Z.
Proof.
  set (a := args RndBt 5 3 3 None true true). destruct C266_nonvacuous as [cs E]. fold a in E.
  set (s' := mkSeeds (sh_of sd0) (fun z => if Z.eqb z (a_seed a + 10000 + Z.of_nat 3) then dr_of sd0 z else mkDraws (fun _ _ _ _ _ => 0%R) (fun _ _ _ _ => 0%R) (fun _ _ _ _ _ => 0%R) (fun _ _ _ _ _ => 0%R) (fun _ _ _ _ => (0%R, 0%R)))).
  assert (G : good_seeds s').
  { destruct sd0_good as [G1 G2]. split; [exact G1|]. intros z. cbn [dr_of s']. destruct (Z.eqb _ _); [apply G2|]. split; [|split]; intros; cbn; lra. }
  destruct (proj2 (C266_constructor a s' G)) as [cs' E'].
  - pose proof (proj1 (C266_constructor a sd0 sd0_good) (ex_intro _ cs E)) as (A1 & A2 & A3 & A4 & A5 & A6 & A7 & A8).
    split; [exact A1|]. split; [exact A2|]. split; [exact A3|]. split; [exact A4|]. split; [exact A5|]. split; [exact A6|]. split; [exact A7|]. left. reflexivity.
  - exists s', cs, cs'. split; [reflexivity|]. split; [exact E|]. split; [exact E'|]. cbn [dr_of s']. now rewrite Z.eqb_refl.
Qed.
