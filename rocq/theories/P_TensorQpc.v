(** C286-C291: tensorized QPCs (spflow/zoo/pic/tensorized/qpc.py). *)
From Coq Require Import List Arith Bool Reals ZArith Lia Lra Sorted.
From Verif Require Import Base ScopeModel ScopeProofs RegionModel RegionSpec RegionProofs CircuitModel CircuitEval LeafModel LeafProofs Integral LayerModel PicModel PicSpec PicMat PicShare TqModel TqSpec TqParam TqLevel TqVal TqStep TqBuild TqTop TqMass TqUse.
Import ListNotations.
Local Open Scope nat_scope.

(** what the constructor is given: a region graph with sorted scopes and univariate leaves, a
    quadrature rule with non-negative weights (one positive), networks with non-negative
    outputs (Softplus) *)
Record tq_ok (root : region) (q : rule) (eps : R) (n_chunks : nat) (L : nat -> nat -> list R -> R) : Prop := {
  ok_sorted : forall r, reach root r -> sorted_scope (r_scope r);
  ok_graph : rg_ok root;
  ok_leaves : univariate root;
  ok_inner : r_children root <> [];
  ok_len : length (wts q) = length (pts q);
  ok_nonneg : forall w, In w (wts q) -> (0 <= w)%R;
  ok_pos : exists w, In w (wts q) /\ (0 < w)%R;
  ok_eps : (0 < eps)%R;
  ok_chunks : 1 <= n_chunks;
  ok_net : forall i f zs, (0 <= L i f zs)%R }.

(** C286: the folded evaluation computes the recursion over the region graph *)
Theorem C286_recursion root cls q eps n_chunks L mlog lf x : tq_ok root q eps n_chunks L ->
  exists v, log_likelihood q eps n_chunks L mlog root 1 cls lf x = Ok v /\
    pr v = tval root cls (length (pts q)) (qpc_weights q eps L mlog root) (leaf_value root lf x) root 0.
Proof. intros []. now apply log_likelihood_ok. Qed.

(** the quadrature-normalised weights sum to one over the integrated latents *)
Theorem C286_weights root q eps n_chunks L mlog : tq_ok root q eps n_chunks L ->
  let W := qpc_weights q eps L mlog root in let K := length (pts q) in
  (forall h s o, bsum K (fun i => bsum K (fun j => w_tk W h s i j o)) = 1%R) /\
  (forall h s c o, bsum K (fun i => w_cp W h s c i o) = 1%R) /\
  (forall m s n k, 1 <= n -> bsum n (fun j => w_mix W m s n j k) = 1%R).
Proof.
  intros [] W K. split; [|split]; [now apply W_tk|now apply W_cp|now apply W_mx].
Qed.

(** C287: total mass one *)
Theorem C287_total root cls q eps n_chunks L mlog D lf f x : tq_ok root q eps n_chunks L ->
  (forall y, log_likelihood q eps n_chunks L mlog root 1 cls lf (fun v => match y v with Some a => a | None => 0%R end) = Ok (f y)) ->
  (forall v k, In v (query (r_scope root)) -> k < length (pts q) -> sums (D v) (fun a => exp (lf (var_rank root v) k a)) 1%R) ->
  sums_over D (query (r_scope root)) (fun y => pr (f y)) x 1%R.
Proof. intros [] HF FD. now apply (qpc_total root cls q eps n_chunks L mlog) with (lf := lf). Qed.

(** the range of a leaf type *)
Definition leaf_domain (t : leaf_type) : domain :=
  match t with LNormal => DReal | LBernoulli => DFin [0%R; 1%R] | LCategorical C => DFin (map INR (seq 0 C)) end.

(** C288: every leaf type is normalised for all network outputs; parameters do not depend on
    the number of chunks *)
Theorem C288_normalised t par : (forall C, t = LCategorical C -> 2 <= C) -> sums (leaf_domain t) (fun a => exp (leaf_ll t par a)) 1%R.
Proof.
  intros HC. destruct t as [| |C]; cbn [leaf_domain]; [apply normal_mass|apply bernoulli_mass|apply categorical_mass]. specialize (HC C eq_refl). lia.
Qed.
Theorem C288_params q n_chunks t fshare I v k p : 1 <= n_chunks -> k < length (pts q) ->
  leaf_param q n_chunks t fshare I v k p = I (if fshare then p else v * num_param t + p) (nth k (pts q) 0%R).
Proof.
  intros HN Hk. unfold leaf_param. rewrite map_chunk by exact HN. erewrite nth_indep by (rewrite map_length; exact Hk). apply map_nth.
Qed.
Theorem C288_circuit root cls q eps n_chunks L mlog t fshare I f x : tq_ok root q eps n_chunks L -> (forall C, t = LCategorical C -> 2 <= C) ->
  (forall y, log_likelihood q eps n_chunks L mlog root 1 cls (fun v k => leaf_ll t (leaf_param q n_chunks t fshare I v k)) (fun v => match y v with Some a => a | None => 0%R end) = Ok (f y)) ->
  sums_over (fun _ => leaf_domain t) (query (r_scope root)) (fun y => pr (f y)) x 1%R.
Proof. intros OK HC HF. eapply C287_total; [exact OK|exact HF|]. intros v k _ _. now apply C288_normalised. Qed.

(** C289: the number of chunks does not change the likelihood, and "tucker" is "auto" *)
Theorem C289_chunks root cls q eps n m L mlog lf x : tq_ok root q eps n L -> 1 <= m ->
  log_likelihood q eps n L mlog root 1 cls lf x = log_likelihood q eps m L mlog root 1 cls lf x.
Proof.
  intros OK Hm. assert (OK' : tq_ok root q eps m L) by (destruct OK; now constructor).
  destruct (C286_recursion root cls q eps n L mlog lf x OK) as (v & -> & P). destruct (C286_recursion root cls q eps m L mlog lf x OK') as (w & -> & P'). f_equal. apply pr_inj. now rewrite P, P'.
Qed.
Lemma choose_eq a p : choose ClsTucker a p = choose ClsAuto a p.
Proof. unfold choose. now destruct (Nat.eqb a 2 && negb p)%bool. Qed.
Lemma height_eq po K C mh h st : build_height po K C mh ClsTucker h st = build_height po K C mh ClsAuto h st.
Proof. unfold build_height. cbv zeta. rewrite choose_eq. reflexivity. Qed.
Lemma loop_eq po K C mh hs : forall st, build_loop po K C mh ClsTucker hs st = build_loop po K C mh ClsAuto hs st.
Proof. induction hs as [|h hs IH]; intros st; cbn [build_loop]; [reflexivity|]. rewrite height_eq. destruct (build_height po K C mh ClsAuto h st); cbn [bind]; [apply IH|reflexivity]. Qed.
Theorem C289_tucker_auto q eps n L mlog root C lf x : log_likelihood q eps n L mlog root C ClsTucker lf x = log_likelihood q eps n L mlog root C ClsAuto lf x.
Proof. unfold log_likelihood, build. now rewrite loop_eq. Qed.

(** C290 (false of the code): a region graph that is a single region over one variable is
    accepted, but its likelihood raises unless the rule has one point *)
Theorem C290_single_region_refuted q eps n L mlog cls lf x v e : length (pts q) <> 1 ->
  exists p, build (Region (mkScope [v] e) []) (length (pts q)) 1 cls = Ok p /\
  log_likelihood q eps n L mlog (Region (mkScope [v] e) []) 1 cls lf x = Err.
Proof.
  intros HK. assert (E : build (Region (mkScope [v] e) []) (length (pts q)) 1 cls = Ok []) by reflexivity.
  exists []. split; [exact E|]. unfold log_likelihood. rewrite E. cbn [bind eval_steps]. cbn [leaf_order leaf_regions post_order]. cbn. rewrite (proj2 (Nat.eqb_neq _ _)) by exact HK. reflexivity.
Qed.

(** C291 (false of the code): categorical input units do not reject values outside of their
    categories nor give them probability zero *)
Theorem C291_categorical_refuted C par n : 2 <= C ->
  leaf_ll (LCategorical C) par (INR (C + n)) = leaf_ll (LCategorical C) par (INR (C - 1)) /\ (0 < exp (leaf_ll (LCategorical C) par (INR (C + n))))%R.
Proof.
  intros HC. split; [|apply exp_pos]. unfold leaf_ll. rewrite !Int_part_INR, !Nat2Z.id. f_equal. lia.
Qed.

(** ** Examples *)
Definition sc (l : list nat) : scope := mkScope l [].
Definition lv (v : nat) : region := Region (sc [v]) [].
(** two partitions of different arity at the root, sharing leaf regions *)
Definition r12 : region := Region (sc [1; 2]) [[lv 1; lv 2]].
Definition mixed : region := Region (sc [0; 1; 2]) [[lv 0; r12]; [lv 0; lv 1; lv 2]].
Lemma mixed_reach r : reach mixed r -> In r [mixed; r12; lv 0; lv 1; lv 2].
Proof.
  intros H. induction H as [|r c H IH (p & Hp & Hc)]; [now left|].
  destruct IH as [<-|[<-|[<-|[<-|[<-|[]]]]]]; cbn in Hp; repeat (destruct Hp as [<-|Hp]; [cbn in Hc; repeat (destruct Hc as [<-|Hc]; [cbn; tauto|]); destruct Hc|]); destruct Hp.
Qed.
Definition half : rule := mkRule [0%R; 1%R] [(1/2)%R; (1/2)%R].
Example C286_mixed : tq_ok mixed half (/ 1000) 2 (fun _ _ zs => fold_right (fun z a => z * z + a)%R 1%R zs).
Proof.
  constructor.
  - intros r Hr. apply mixed_reach in Hr. cbn [In] in Hr. destruct Hr as [<-|[<-|[<-|[<-|[<-|[]]]]]]; repeat constructor; cbn; lia.
  - intros r Hr. apply mixed_reach in Hr. cbn [In] in Hr.
    destruct Hr as [<-|[<-|[<-|[<-|[<-|[]]]]]]; (split; [split; [repeat constructor; cbn; lia|split; [constructor|split; [intros w _ []|discriminate]]]|split; [reflexivity|split; [discriminate|]]]); intros p Hp; cbn in Hp;
      repeat (destruct Hp as [<-|Hp]; [split; [cbn; lia|split; [repeat constructor; cbn; lia|]]; cbn; intros v; split;
        [intros H; repeat (destruct H as [<-|H]; [(eexists; split; [left; reflexivity|cbn; tauto]) || (eexists; split; [right; left; reflexivity|cbn; tauto]) || (eexists; split; [right; right; left; reflexivity|cbn; tauto])|]); destruct H
        |intros (c & HC & H); repeat (destruct HC as [<-|HC]; [cbn in H; tauto|]); destruct HC]|]); destruct Hp.
  - intros r Hr. apply mixed_reach in Hr. cbn [In] in Hr. destruct Hr as [<-|[<-|[<-|[<-|[<-|[]]]]]]; intros H; (discriminate H || reflexivity).
  - discriminate.
  - reflexivity.
  - intros w [<-|[<-|[]]]; lra.
  - exists (1/2)%R. split; [now left|lra].
  - lra.
  - lia.
  - intros i f zs. induction zs as [|z zs IH]; cbn; nra.
Qed.
(** its plan: height 1 one Tucker fold; height 2 two CP folds of arity 3, the binary one
    padded; then one mixing fold *)
Example C286_mixed_plan : build mixed 2 1 ClsAuto = Ok [
  mkStep false [0] [[1; 2]] (Partition 0 (mkPart Tucker 1 2 2 None));
  mkStep true [0; 1] [[0; 3; 4]; [0; 1; 2]] (Partition 1 (mkPart Cp 2 3 1 (Some [[true; true; false]; [true; true; true]])));
  mkStep false [2] [[0; 1]] (Mixing 0 (mkMix 1 2 1 None))].
Proof. vm_compute. reflexivity. Qed.
(** two variables, written out *)
Example C286_pair q eps n L mlog lf x : let root := Region (sc [3; 5]) [[lv 3; lv 5]] in tq_ok root q eps n L -> let K := length (pts q) in
  exists v, log_likelihood q eps n L mlog root 1 ClsAuto lf x = Ok v /\
    pr v = bsum K (fun i => bsum K (fun j => (normalise2 q (fun a b => L 0%nat 0%nat [a; b] + eps) i j * (exp (lf 0%nat i (x 3%nat)) * exp (lf 1%nat j (x 5%nat))))%R)).
Proof. intros root OK K. destruct (C286_recursion root ClsAuto q eps n L mlog lf x OK) as (v & E & P). exists v. split; [exact E|]. rewrite P. reflexivity. Qed.
Lemma qpc_fun root cls q eps n L mlog lf : tq_ok root q eps n L -> exists f : row -> lval,
  forall y, log_likelihood q eps n L mlog root 1 cls lf (fun v => match y v with Some a => a | None => 0%R end) = Ok (f y).
Proof.
  intros OK. exists (fun y => match log_likelihood q eps n L mlog root 1 cls lf (fun v => match y v with Some a => a | None => 0%R end) with Ok v => v | Err => NInf end). intros y.
  destruct (C286_recursion root cls q eps n L mlog lf (fun v => match y v with Some a => a | None => 0%R end) OK) as (v & -> & _). reflexivity.
Qed.
Example C288_mixed : exists f, (forall y, log_likelihood half (/ 1000) 2 (fun _ _ zs => fold_right (fun z a => z * z + a)%R 1%R zs) (fun _ _ _ _ => 0%R) mixed 1 ClsAuto
    (fun v k => leaf_ll LBernoulli (leaf_param half 2 LBernoulli false (fun c z => INR c + z)%R v k)) (fun v => match y v with Some a => a | None => 0%R end) = Ok (f y)) /\
  forall x, sums_over (fun _ => DFin [0%R; 1%R]) [0; 1; 2] (fun y => pr (f y)) x 1%R.
Proof.
  destruct (qpc_fun mixed ClsAuto half (/ 1000) 2 (fun _ _ zs => fold_right (fun z a => z * z + a)%R 1%R zs) (fun _ _ _ _ => 0%R) (fun v k => leaf_ll LBernoulli (leaf_param half 2 LBernoulli false (fun c z => INR c + z)%R v k)) C286_mixed) as (f & HF).
  exists f. split; [exact HF|]. intros x.
  exact (C288_circuit mixed ClsAuto half (/ 1000) 2 _ (fun _ _ _ _ => 0%R) LBernoulli false (fun c z => INR c + z)%R f x C286_mixed ltac:(discriminate) HF).
Qed.

Print Assumptions C286_recursion.
Print Assumptions C286_weights.
Print Assumptions C287_total.
Print Assumptions C288_normalised.
Print Assumptions C288_params.
Print Assumptions C288_circuit.
Print Assumptions C289_chunks.
Print Assumptions C289_tucker_auto.
Print Assumptions C290_single_region_refuted.
Print Assumptions C291_categorical_refuted.
