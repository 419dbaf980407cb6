(** C292: integrals without a weighting function (spflow/zoo/pic/pipeline.py). *)
From Coq Require Import List Arith Bool Reals Lia Lra.
From Verif Require Import Base ScopeModel CircuitModel LayerModel PicModel.
Import ListNotations.

(** a unit inside of a PIC *)
Inductive within (u : pic) : pic -> Prop :=
| within_self : within u u
| within_int zs ys w c : within u c -> within u (PInt zs ys w c)
| within_left s zs l r : within u l -> within u (PProd s zs l r)
| within_right s zs l r : within u r -> within u (PProd s zs l r)
| within_sum ws zs cs c : In c cs -> within u c -> within u (PSum ws zs cs).

Lemma mapR_in_err {A B} (h : A -> result B) a l : In a l -> h a = Err -> mapR h l = Err.
Proof.
  induction l as [|b l IH]; intros [] E; cbn [mapR]; fold (@mapR A B h); [subst b; now rewrite E|]. destruct (h b); cbn [bind]; [|reflexivity]. now rewrite IH.
Qed.
(** materialising rejects every PIC with an integral that has no function, however deep *)
Theorem C292_missing_function q gf p G zs ys c : within (PInt zs ys NoFn c) p -> forall fuel, pic2qpc q gf fuel (p, G) = Err.
Proof.
  intros HW. assert (HV : forall fuel, visit q gf G fuel p = Err).
  { induction HW as [|zs' ys' w c' _ IH|s zs' l r _ IH|s zs' l r _ IH|ws zs' cs c' Hin _ IH]; intros [|n]; cbn [visit]; try reflexivity.
    - destruct w as [|f|k h]; [reflexivity| |]; [now rewrite IH|]. destruct (nth_error G k) as [g|]; [|reflexivity].
      destruct (mapR _ (g_units g)); cbn [bind]; [|reflexivity]. destruct (mapR _ _); cbn [bind]; [|reflexivity]. now rewrite IH.
    - now rewrite IH.
    - destruct (visit q gf G n l); cbn [bind]; [|reflexivity]. now rewrite IH.
    - rewrite (mapR_in_err _ c' cs Hin (IH n)). reflexivity. }
  intros fuel. unfold pic2qpc. cbn [fst snd]. rewrite HV. now destruct (negb (rule_ok q)).
Qed.
(** an integral below a sum and a product *)
Example C292_ex q gf i zs ys fuel : pic2qpc q gf fuel (PSum [1%R] (mkScope [] []) [PProd (mkScope [0; 1] []) (mkScope [] []) (PLeaf i) (PInt zs ys NoFn (PLeaf i))], []) = Err.
Proof. apply (C292_missing_function q gf _ [] zs ys (PLeaf i)). apply within_sum with (c := PProd (mkScope [0; 1] []) (mkScope [] []) (PLeaf i) (PInt zs ys NoFn (PLeaf i))); [now left|]. apply within_right, within_self. Qed.
Print Assumptions C292_missing_function.
