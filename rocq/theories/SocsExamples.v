(** Concrete signed circuits and sums of squares: the hypotheses of the theorems
    are met, and the counterexamples of C89-C94. *)
From Coq Require Import List Arith ZArith Bool Reals Lia Lra Sorted.
From Verif Require Import Base ScopeModel ScopeProofs CircuitModel CircuitBasics CircuitEval CircuitSpec CircuitMarg CircuitProps Integral MargModel MargProofs
  LeafModel LeafSpec LeafProofs LeafTop SampleModel SampleSpec SampleExp SignedModel SignedSpec SignedProofs LipProofs IpProofs SocsProofs MhProofs SocsTop SocsSample ExpUnique.
Import ListNotations.
Local Open Scope R_scope.

Definition two : nat -> domain := fun _ => DFin (map INR (seq 0 2)).
Definition sc01 : scope := mkScope [0; 1]%nat [].

(** a categorical leaf with two states and probabilities p f c k *)
Definition cat2 (vs : list nat) (ch : nat) (p : nat -> nat -> nat -> R) : smod :=
  SLeaf (SFam (mk_fleaf (mkScope vs []) ch 1 (fun f c _ => FCategorical 2 (fun k => ln (p f c k))))).
Definition sc2 (vs : list nat) (ch : nat) (w : nat -> nat -> nat -> R) : smod :=
  SLeaf (SSC (mkScope vs []) ch 1 2 (fun f c _ k => w f c k)).

Lemma softmax2 p k : 0 < p 0%nat -> 0 < p 1%nat -> p 0%nat + p 1%nat = 1 -> (k < 2)%nat -> softmax 2 (fun j => ln (p j)) k = p k.
Proof.
  intros H0 H1 HS Hk. apply softmax_ln; auto.
  - intros i Hi. destruct i as [|[|i]]; [assumption|assumption|lia].
  - cbn. lra.
Qed.

(** ** a signed component and a monotone component *)
Definition wsg (f c k : nat) : R := match c, k with O, O => 1 | O, _ => - / 2 | _, O => / 2 | _, _ => 1 end.
Definition compS : smod := SSigned (SProduct (sc2 [0; 1]%nat 2 wsg)) 1 1 (fun _ i _ _ => match i with O => 1 | _ => -1 end).
Definition pm (f c k : nat) : R := match c, k with O, O => 3 / 4 | O, _ => 1 / 4 | _, _ => 1 / 2 end.
Definition compM : smod := SSum (SProduct (cat2 [0; 1]%nat 2 pm)) 1 1 (fun _ _ _ _ => 0).


Lemma b_sum c co rr lg : built c -> (1 <= co)%nat -> (1 <= rr)%nat -> (1 <= channels (out_shape c))%nat -> built (MSum c co rr lg).
Proof.
  intros B H1 H2 H3. set (n := channels (out_shape c)) in *.
  apply (b_log_weights c co rr (fun f i o r => ln (/ INR n))).
  assert (0 < INR n) as Hn by (apply lt_0_INR; lia).
  apply (b_sum_w c 1 1 (W4 (mkW (features (out_shape c)) n co rr (fun _ _ _ _ => / INR n)))); [assumption|].
  apply (mk_sum_w_intro c (mkW (features (out_shape c)) n co rr (fun _ _ _ _ => / INR n))); cbn [wO wF wI wR wv]; auto.
  - intros. now apply Rinv_0_lt_compat.
  - intros. rewrite bsum_const. field. lra.
Qed.
Lemma b_leaf2 sc ch rep lp mo : leaf_okb (mkLeaf sc ch rep lp mo) = true -> built (MProduct (MLeaf (mkLeaf sc ch rep lp mo))).
Proof. intros H. apply (b_product [MLeaf (mkLeaf sc ch rep lp mo)]); [|reflexivity]. constructor; [now apply b_leaf|constructor]. Qed.

Lemma small : / 10 ^ 30 <= / 2.
Proof. apply Rinv_le_contravar; [lra|]. apply Rle_trans with (10 ^ 1); [lra|apply Rle_pow; [lra|lia]]. Qed.

Lemma compS_ok : component 1 two compS.
Proof.
  pose proof small as Sm. constructor.
  - split; [cbn; apply b_sum; cbn; try lia; apply b_leaf2; reflexivity|cbn; auto].
  - repeat constructor.
  - constructor; [|constructor]. cbn. split; [lia|reflexivity].
  - intros la lb [<-|[]] [<-|[]] _. exact I.
  - repeat constructor.
  - split.
    + cbn. split; [exact I|]. intros f i o r _ _ _ _. right. destruct i; [rewrite Rabs_R1; lra|].
      replace (-1) with (- (1)) by ring. rewrite Rabs_Ropp, Rabs_R1. lra.
    + constructor; [|constructor]. cbn. intros f c r k _ _ _ _. right. unfold wsg.
      destruct c, k; rewrite ?Rabs_Ropp, ?(Rabs_pos_eq 1), ?(Rabs_pos_eq (/ 2)); lra.
  - exact I.
Qed.

Lemma compM_ok : component 1 two compM.
Proof.
  constructor.
  - split; [cbn; apply b_sum; cbn; try lia; apply b_leaf2; reflexivity|cbn; auto].
  - repeat constructor.
  - constructor; [|constructor]. cbn. intros. split; [reflexivity|left; reflexivity].
  - intros la lb [<-|[]] [<-|[]] _. cbn. intros. exact I.
  - constructor; [|constructor]. intros f c r _ a. reflexivity.
  - split; [exact I|]. constructor; [exact I|constructor].
  - cbn. constructor; [exact I|constructor].
Qed.

Definition K_S : T4 := ip2 slipv compS compS.
Definition K_M : T4 := ip2 slipv compM compM.
Lemma ip_S : inner_product_matrix compS compS = Ok K_S. Proof. reflexivity. Qed.
Lemma ip_M : inner_product_matrix compM compM = Ok K_M. Proof. reflexivity. Qed.
Lemma val_S : K_S 0%nat 0%nat 0%nat 0%nat = 25 / 8.
Proof. unfold K_S, compS, sum_rule, sc2, slipv, wsg. cbn. unfold wsg. field. Qed.
Lemma pm_soft f c k : (k < 2)%nat -> softmax 2 (fun j => ln (pm f c j)) k = pm f c k.
Proof. intros H. apply (softmax2 (pm f c)); auto; unfold pm; destruct c; lra. Qed.
Lemma unif2 k : (k < 2)%nat -> softmax 2 (fun _ => 0) k = / 2.
Proof. intros _. unfold softmax. cbn. rewrite exp_0. field. Qed.
Lemma val_M : K_M 0%nat 0%nat 0%nat 0%nat = 73 / 256.
Proof.
  unfold K_M, compM, sum_rule, cat2. cbn [ip2 as_sum schan skel out_shape channels features sl_ch fl_ch mk_fleaf].
  unfold sum_rule, slipv, slip, lip, schan, sfeat. cbn [skel out_shape channels features l_ch sl_ch sl_scope fl_ch mk_fleaf fl_scope fl_fam bsum bprod length query l_scope Nat.eqb].
  cbn -[softmax pm]. rewrite !unif2 by lia. rewrite !pm_soft by lia. unfold pm. field.
Qed.

Definition dom2 : nat -> list R := fun _ => map INR (seq 0 2).
Definition vs2 : list nat := [0; 1]%nat.
Definition exC : list smod := [compS; compM].
Definition blank : row := fun _ => None.

Lemma exC_members : Forall (member two vs2) exC.
Proof.
  constructor; [|constructor; [|constructor]]; (constructor; [first [exact compS_ok|exact compM_ok]|reflexivity|intros v; cbn; tauto]).
Qed.
Lemma exC_part : exists Z, partition exC = Ok Z /\ Z 0%nat 0%nat 0%nat = 873 / 256.
Proof.
  eexists. split; [unfold partition; cbn [mapR exC]; rewrite ip_S, ip_M; reflexivity|].
  cbn [map lsumR]. rewrite val_S, val_M. lra.
Qed.
Lemma tiny_small : tiny <= / 2. Proof. exact small. Qed.
Lemma exC_tiny : Forall (fun m => forall k, inner_product_matrix m m = Ok k -> tiny <= k 0%nat 0%nat 0%nat 0%nat) exC.
Proof.
  pose proof tiny_small as T. constructor; [|constructor; [|constructor]]; intros k E.
  - rewrite ip_S in E. injection E as <-. rewrite val_S. lra.
  - rewrite ip_M in E. injection E as <-. rewrite val_M.
    unfold tiny. apply Rle_trans with (/ 10 ^ 1); [apply Rinv_le_contravar; [lra|apply Rle_pow; [lra|lia]]|lra].
Qed.

Definition xs2 : list row := assignments dom2 vs2 blank.
Lemma xs2_cell y v : In y xs2 -> In v vs2 -> exists k, (k < 2)%nat /\ y v = Some (INR k).
Proof.
  intros Hy Hv. destruct (assignments_In _ _ _ _ Hy) as [H _]. destruct (H v Hv) as (a & Ha & E).
  apply in_map_iff in Ha. destruct Ha as (k & <- & Hk). apply in_seq in Hk. exists k. split; [lia|assumption].
Qed.
Lemma cat_supp (k K : nat) lg : (k < K)%nat -> supp (FCategorical K lg) (INR k) = true.
Proof. intros H. cbn. rewrite asnat_INR. now apply Nat.ltb_lt. Qed.
Lemma vs2_nth f : (f < 2)%nat -> In (nth f vs2 0%nat) vs2.
Proof. intros H. now apply nth_In. Qed.
Lemma xs2_supp_cat y ch p : In y xs2 -> in_support (cat2 vs2 ch p) y.
Proof.
  intros Hy. constructor; [|constructor]. cbn [fl_scope mk_fleaf query fl_fam]. intros f c r Hf _ _.
  destruct (xs2_cell y _ Hy (vs2_nth f Hf)) as (k & Hk & E). exists (INR k). split; [exact E|now apply cat_supp].
Qed.
Lemma xs2_supp_sc y ch w : In y xs2 -> in_support (sc2 vs2 ch w) y.
Proof. intros Hy. constructor; [|constructor]. intros v Hv. exact (xs2_cell y v Hy Hv). Qed.

Lemma exC_accepts y : In y xs2 -> Forall (fun m => built (skel m) /\ sums_monotone m /\ uniform_support m /\ in_support m y) exC.
Proof.
  intros Hy. pose proof compS_ok as [[B1 _] _ _ _ U1 _ _]. pose proof compM_ok as [[B2 _] _ _ _ U2 _ _].
  constructor; [|constructor; [|constructor]]; (split; [assumption|split; [exact I|split; [assumption|]]]).
  - exact (xs2_supp_sc y 2 wsg Hy).
  - exact (xs2_supp_cat y 2 pm Hy).
Qed.

Lemma exC_samples burn steps : (1 <= steps)%nat -> exists p, socs_sample xs2 exC burn steps = Ok p.
Proof.
  intros Hs. unfold socs_sample.
  assert (forallb (fun m => shape_eqb (out_shape (skel m)) (mkShape 1 1 1)) exC = true) as -> by reflexivity.
  assert (exists zs, mapR log_self_ip exC = Ok zs) as (zs & ->).
  { cbn [mapR exC]. unfold log_self_ip. rewrite ip_S, ip_M. cbn. eauto. }
  cbn [bind]. destruct (Nat.eqb_spec steps 0); [lia|].
  destruct (mapR_all (tables xs2) exC) as (tabs & ->); [|cbn [bind]; eauto].
  intros m Hm. unfold tables.
  assert (exists q, proposal_of m = Ok q /\ forall y, In y xs2 -> exists t, mll y q = Ok t) as (q & -> & Hq).
  { destruct Hm as [<-|[<-|[]]].
    - eexists. split; [reflexivity|]. intros y Hy. apply mll_ok.
      + exact I.
      + constructor; [|constructor]. intros f c r _ a. reflexivity.
      + apply built_wf. cbn. apply b_sum; cbn; try lia. apply b_leaf2. reflexivity.
      + constructor; [|constructor]. cbn [proposal_leaf fl_scope mk_fleaf query fl_fam]. intros f c r Hf _ _.
        destruct (xs2_cell y _ Hy (vs2_nth f Hf)) as (k & Hk & E). exists (INR k). split; [exact E|now apply cat_supp].
    - eexists. split; [reflexivity|]. intros y Hy. pose proof compM_ok as [[B2 _] _ _ _ U2 _ _].
      apply mll_ok; auto; [exact I|now apply built_wf|exact (xs2_supp_cat y 2 pm Hy)]. }
  cbn [bind].
  destruct (mapR_all (fun x => seval x m) xs2) as (ts & ->).
  { intros y Hy. pose proof (exC_accepts y Hy) as A. rewrite Forall_forall in A. destruct (A m Hm) as (B & M & U & S).
    apply seval_ok; auto. now apply built_wf. }
  cbn [bind]. destruct (mapR_all (fun x => mll x q) xs2 Hq) as (qs & ->). cbn [bind]. eauto.
Qed.

(** ** missing values (C89) *)
Definition half2 (f c k : nat) : R := 1 / 2.
Definition nanC : list smod := [cat2 [0]%nat 1 half2].
Lemma half2_soft f c k : (k < 2)%nat -> softmax 2 (fun j => ln (half2 f c j)) k = 1 / 2.
Proof. intros H. apply (softmax2 (half2 f c)); auto; unfold half2; lra. Qed.
Lemma nanC_part : exists Z, partition nanC = Ok Z /\ Z 0%nat 0%nat 0%nat = 1 / 2.
Proof.
  eexists. split; [reflexivity|]. cbn -[softmax half2]. rewrite !half2_soft by lia. lra.
Qed.
Lemma nanC_blank : exists t, socs_ll nanC blank = Ok t /\ pr (t 0%nat 0%nat 0%nat) = 2.
Proof.
  destruct nanC_part as (Z & EZ & VZ).
  assert (validates (mk_fleaf (mkScope [0]%nat []) 1 1 (fun f c _ => FCategorical 2 (fun k => ln (half2 f c k)))) blank = true) as V.
  { apply validates_true. intros f c r (Hf & Hc & Hr). cbn in Hf, Hc, Hr. rewrite vsupp_common; [|intros ? ? ? _ ?; reflexivity|unfold entries; cbn; auto].
    unfold imputed. cbn. now rewrite asnat_1. }
  unfold socs_ll. cbn [nanC mapR cat2 seval]. unfold fleaf_ll. rewrite V. cbn [bind].
  change [SLeaf (SFam (mk_fleaf (mkScope [0]%nat []) 1 1 (fun f c _ => FCategorical 2 (fun k => ln (half2 f c k)))))] with nanC.
  rewrite EZ. cbn [bind]. eexists. split; [reflexivity|].
  cbv beta. rewrite pr_lsub_R, pr_lse. cbn. rewrite VZ.
  assert (tiny <= / 2) by exact small. rewrite Rmax_left by lra. rewrite exp_ln by lra.
  match goal with |- context [exp ?e] => replace e with 0 by ring end. rewrite exp_0. field.
Qed.

(** ** variables listed in different orders (C90) *)
Definition po (f c k : nat) : R := match f, k with O, O => 3 / 4 | O, _ => 1 / 4 | _, _ => 1 / 2 end.
Definition po' (f c k : nat) : R := match f, k with O, _ => 1 / 2 | _, O => 3 / 4 | _, _ => 1 / 4 end.
Definition ordA : smod := SProduct (cat2 [0; 1]%nat 1 po).
Definition ordB : smod := SProduct (cat2 [1; 0]%nat 1 po').
Lemma po_soft f c k : (k < 2)%nat -> softmax 2 (fun j => ln (po f c j)) k = po f c k.
Proof. intros H. apply (softmax2 (po f c)); auto; unfold po; destruct f; lra. Qed.
Lemma po'_soft f c k : (k < 2)%nat -> softmax 2 (fun j => ln (po' f c j)) k = po' f c k.
Proof. intros H. apply (softmax2 (po' f c)); auto; unfold po'; destruct f; lra. Qed.
Lemma ord_same x : fun_of ordA x 0%nat 0%nat 0%nat = fun_of ordB x 0%nat 0%nat 0%nat.
Proof.
  cbn [fun_of ordA ordB cat2 leaf_fun bprod sfeat skel out_shape features sl_scope fl_scope mk_fleaf query length nth fl_fam].
  assert (forall a, pr (fam_lp (FCategorical 2 (fun k => ln (po 0 0 k))) a) = pr (fam_lp (FCategorical 2 (fun k => ln (po' 1 0 k))) a)) as E0 by reflexivity.
  assert (forall a, pr (fam_lp (FCategorical 2 (fun k => ln (po 1 0 k))) a) = pr (fam_lp (FCategorical 2 (fun k => ln (po' 0 0 k))) a)) as E1 by reflexivity.
  unfold leaf_fun, sfeat. cbn [skel out_shape features l_scope sl_scope fl_scope mk_fleaf query length nth fl_fam bprod].
  destruct (x 0%nat), (x 1%nat); rewrite ?E0, ?E1; ring.
Qed.
Definition K_AB : T4 := ip2 slipv ordA ordB.
Definition K_AA : T4 := ip2 slipv ordA ordA.
Lemma ip_AB : inner_product_matrix ordA ordB = Ok K_AB. Proof. reflexivity. Qed.
Lemma ip_AA : inner_product_matrix ordA ordA = Ok K_AA. Proof. reflexivity. Qed.
Lemma val_AB : K_AB 0%nat 0%nat 0%nat 0%nat = 1 / 4.
Proof. unfold K_AB. cbn -[softmax po po']. rewrite !po_soft, !po'_soft by lia. unfold po, po'. field. Qed.
Lemma val_AA : K_AA 0%nat 0%nat 0%nat 0%nat = 5 / 16.
Proof. unfold K_AA. cbn -[softmax po]. rewrite !po_soft by lia. unfold po. field. Qed.

(** ** zero weights of a SignedCategorical root (C91) *)
Definition w10 (f c k : nat) : R := match k with O => 1 | _ => 0 end.
Definition zeroC : list smod := [sc2 [0]%nat 1 w10].
Lemma zeroC_val : exists t, socs_ll zeroC (fun _ => Some 1) = Ok t /\ 0 < pr (t 0%nat 0%nat 0%nat).
Proof.
  unfold socs_ll. cbn [zeroC mapR sc2 seval]. unfold scat_eval. cbn [query forallb].
  replace (trunc 1) with 1%Z by (change 1 with (INR 1); now rewrite trunc_INR).
  cbn [Z.leb Z.ltb Z.compare Z.of_nat Pos.of_succ_nat Pos.succ Pos.compare Pos.compare_cont andb].
  cbn [bind]. unfold partition. cbn [mapR]. unfold inner_product_matrix.
  eexists. split; [reflexivity|]. cbv beta. rewrite pr_lsub_R, pr_lse.
  apply Rdiv_lt_0_compat; [|apply exp_pos]. cbn. rewrite Rplus_0_l. apply exp_pos.
Qed.

(** ** a SignedSum with several output channels (C92) *)
Definition multiC : list smod := [SSigned (SSigned (sc2 vs2 2 wsg) 2 1 (fun _ i o _ => if Nat.eqb i o then 1 else -1)) 1 1 (fun _ i _ _ => match i with O => 1 | _ => -1 end)].
Definition multiC' : list smod := [SProduct (hd compS multiC)].
Lemma multiC_fails burn steps : socs_sample xs2 multiC' burn steps = Err.
Proof.
  unfold socs_sample. destruct (forallb _ multiC'); [|reflexivity]. destruct (mapR log_self_ip multiC') as [zs|]; [|reflexivity].
  cbn [bind]. destruct (Nat.eqb steps 0); reflexivity.
Qed.
Lemma multiC_built : Forall (fun m => built (skel m)) multiC'.
Proof.
  constructor; [|constructor]. cbn. 
  match goal with |- built (MProduct ?c) => apply (b_product [c]); [|reflexivity]; constructor; [|constructor] end.
  apply b_sum; cbn; try lia. apply b_sum; cbn; try lia. apply b_leaf. reflexivity.
Qed.
Lemma multiC_shape : map (fun m => out_shape (skel m)) multiC' = [mkShape 1 1 1]. Proof. reflexivity. Qed.
Lemma multiC_ll y : In y xs2 -> exists t, socs_ll multiC' y = Ok t.
Proof.
  intros Hy. assert (exists Z, partition multiC' = Ok Z) as (Z & EZ) by (eexists; reflexivity).
  apply (socs_accepts multiC' y Z); [|assumption]. pose proof multiC_built as B. apply Forall_inv in B.
  constructor; [|constructor]. split; [assumption|]. split; [exact I|]. split; [repeat constructor|]. exact (xs2_supp_sc y 2 wsg Hy).
Qed.
Lemma multiC_log_self : exists z, log_self_ip (hd compS multiC') = Ok z.
Proof. eexists. reflexivity. Qed.

(** ** the chain is not exact after any number of steps (C93) *)
Definition p23 (f c k : nat) : R := match k with O => 2 / 3 | _ => 1 / 3 end.
Definition mhC : list smod := [cat2 [0]%nat 1 p23].
Definition xs1 : list row := assignments dom2 [0]%nat blank.
Lemma p23_soft f c k : (k < 2)%nat -> softmax 2 (fun j => ln (p23 f c j)) k = p23 f c k.
Proof. intros H. apply (softmax2 (p23 f c)); auto; unfold p23; lra. Qed.

Lemma mhC_ok : component 1 two (cat2 [0]%nat 1 p23).
Proof.
  constructor.
  - split; [cbn; apply b_leaf; reflexivity|reflexivity].
  - repeat constructor.
  - constructor; [|constructor]. cbn. intros. split; [reflexivity|left; reflexivity].
  - intros la lb [<-|[]] [<-|[]] _. cbn. intros. exact I.
  - constructor; [|constructor]. intros f c r _ a. reflexivity.
  - split; [exact I|]. constructor; [exact I|constructor].
  - cbn. constructor; [exact I|constructor].
Qed.
Lemma mhC_mem : member two [0]%nat (cat2 [0]%nat 1 p23).
Proof. constructor; [exact mhC_ok|reflexivity|intros v; cbn; tauto]. Qed.
Definition K_mh : T4 := ip2 slipv (cat2 [0]%nat 1 p23) (cat2 [0]%nat 1 p23).
Lemma ip_mh : inner_product_matrix (cat2 [0]%nat 1 p23) (cat2 [0]%nat 1 p23) = Ok K_mh. Proof. reflexivity. Qed.

Lemma acc_pos lt lq x y : 0 < pr (lt x) -> 0 < pr (lt y) -> 0 < pr (lq x) -> 0 < pr (lq y) ->
  acc lt lq x y = Rmin 1 (pr (lt y) / pr (lt x) * (pr (lq x) / pr (lq y))).
Proof.
  unfold acc, log_alpha. destruct (lt x) as [|a], (lt y) as [|b], (lq x) as [|c], (lq y) as [|d]; cbn [pr xsub xadd accept_prob]; try lra.
  intros _ _ _ _. unfold Rminus. rewrite !exp_plus, !exp_Ropp. reflexivity.
Qed.

Lemma mh_two lt lq g k : pr (lt 0%nat) = 4 / 9 -> pr (lt 1%nat) = 1 / 9 -> pr (lq 0%nat) = 2 / 3 -> pr (lq 1%nat) = 1 / 3 ->
  let e := loop_exp 2 lt lq g k in
  e 0%nat - e 1%nat = (1 / 6) ^ k * (g 0%nat - g 1%nat) /\ 4 / 5 * e 0%nat + 1 / 5 * e 1%nat = 4 / 5 * g 0%nat + 1 / 5 * g 1%nat.
Proof.
  intros T0 T1 Q0 Q1.
  assert (acc lt lq 0 0 = 1) as A00 by (rewrite acc_pos by lra; rewrite T0, Q0; rewrite Rmin_left; [reflexivity|right; field]).
  assert (acc lt lq 1 1 = 1) as A11 by (rewrite acc_pos by lra; rewrite T1, Q1; rewrite Rmin_left; [reflexivity|right; field]).
  assert (acc lt lq 1 0 = 1) as A10 by (rewrite acc_pos by lra; rewrite T0, T1, Q0, Q1; rewrite Rmin_left; [reflexivity|lra]).
  assert (acc lt lq 0 1 = 1 / 2) as A01 by (rewrite acc_pos by lra; rewrite T0, T1, Q0, Q1; rewrite Rmin_right; lra).
  induction k as [|k [I1 I2]]; cbn [loop_exp].
  - cbn. split; ring.
  - set (h := loop_exp 2 lt lq g k) in *. unfold step_exp. cbn [bsum]. rewrite A00, A01, A10, A11, Q0, Q1. cbn [pow].
    split; [|lra]. rewrite Rmult_assoc, <- I1. lra.
Qed.

Lemma mhC_never burn steps p : socs_sample xs1 mhC burn steps = Ok p ->
  forall u, expects two p (fun i => if Nat.eqb i 0 then 1 else 0) u -> u = 4 / 5 - 2 / 15 * (1 / 6) ^ (burn + steps).
Proof.
  unfold socs_sample, mhC. change (forallb (fun m => shape_eqb (out_shape (skel m)) (mkShape 1 1 1)) [cat2 [0]%nat 1 p23]) with true. cbv iota.
  cbn [mapR]. destruct (log_self_ip (cat2 [0]%nat 1 p23)) as [z|]; [|discriminate]. cbn [bind]. destruct (Nat.eqb steps 0); [discriminate|].
  destruct (tables xs1 (cat2 [0]%nat 1 p23)) as [[lt lq]|] eqn:Et; [|discriminate]. cbn [bind length]. intros E. injection E as <-.
  assert (forall v, In v [0]%nat -> two v = DFin (dom2 v)) as HD by reflexivity.
  assert (NoDup [0]%nat) as ND by (repeat constructor; intros []).
  destruct (tables_spec two dom2 [0]%nat blank HD ND (cat2 [0]%nat 1 p23) K_mh lt lq mhC_mem ip_mh Et) as (T1 & T2 & _ & _).
  change (length (assignments dom2 [0]%nat blank)) with 2%nat in *.
  assert (forall k, (k < 2)%nat -> fun_of (cat2 [0]%nat 1 p23) (nth k (assignments dom2 [0]%nat blank) blank) 0%nat 0%nat 0%nat = p23 0 0 k) as F.
  { intros k Hk. assert (nth k (assignments dom2 [0]%nat blank) blank 0%nat = Some (INR k)) as E by (destruct k as [|[|k]]; [reflexivity|reflexivity|lia]).
    cbn [fun_of cat2]. unfold leaf_fun. cbn [sl_scope fl_scope mk_fleaf query nth fl_fam]. rewrite E, pr_categorical by assumption. now apply p23_soft. }
  assert (pr (lt 0%nat) = 4 / 9) as L0 by (rewrite T1, F by lia; unfold p23; lra).
  assert (pr (lt 1%nat) = 1 / 9) as L1 by (rewrite T1, F by lia; unfold p23; lra).
  assert (forall y, (y < 2)%nat -> pr (lq y) = p23 0 0 y) as Q.
  { clear -Et F. unfold tables in Et. cbn [bind proposal_of contains_signed cat2] in Et. unfold proposal_of in Et. cbn [contains_signed bind] in Et.
    destruct (mapR _ xs1); [|discriminate]. cbn [bind] in Et. destruct (mapR _ xs1) as [qs|] eqn:Eq; [|discriminate]. cbn [bind] in Et. injection Et as _ <-.
    apply mapR_ok in Eq. intros y Hy. pose proof (Forall2_nth _ _ _ y blank (fun _ _ _ => NInf) Eq Hy) as Ey.
    pose proof mhC_ok as [[B U] _ _ _ US _ _].
    transitivity (fun_of (cat2 [0]%nat 1 p23) (nth y xs1 blank) 0%nat 0%nat 0%nat); [|now apply F].
    apply (mll_val 1 (nth y xs1 blank) (cat2 [0]%nat 1 p23) (built_wf _ B) U US _ Ey 0%nat 0%nat 0%nat). constructor; cbn; lia. }
  pose proof (Q 0%nat ltac:(lia)) as Q0. pose proof (Q 1%nat ltac:(lia)) as Q1. unfold p23 in Q0, Q1.
  intros u Hu.
  assert (expects two (Choose 1 (softmax 1 (fun i => nth i [z] 0)) (fun i => mh_chain 2 (fst (nth i [(lt, lq)] (fun _ => NInf, fun _ => NInf))) (snd (nth i [(lt, lq)] (fun _ => NInf, fun _ => NInf))) (burn + steps)))
    (fun i => if Nat.eqb i 0 then 1 else 0) (bsum 2 (fun x => pr (lq x) * loop_exp 2 lt lq (fun i => if Nat.eqb i 0 then 1 else 0) (burn + steps) x))) as Hv.
  { cbn [expects]. eexists (fun _ => _). split; [intros i Hi _; replace i with 0%nat by lia; cbn [nth fst snd]; apply mh_chain_exp|].
    cbn [bsum]. unfold softmax. cbn [bsum nth]. pose proof (exp_pos z). field. lra. }
  rewrite (expects_unique _ _ _ _ _ Hu Hv).
  destruct (mh_two lt lq (fun i => if Nat.eqb i 0 then 1 else 0) (burn + steps) L0 L1 Q0 Q1) as [M1 M2]. cbn [Nat.eqb] in M1, M2.
  cbn [bsum]. rewrite Q0, Q1. lra.
Qed.
Lemma mhC_samples burn steps : (1 <= steps)%nat -> exists p, socs_sample xs1 mhC burn steps = Ok p.
Proof.
  intros Hs. unfold socs_sample, mhC. change (forallb (fun m => shape_eqb (out_shape (skel m)) (mkShape 1 1 1)) [cat2 [0]%nat 1 p23]) with true. cbv iota.
  cbn [mapR]. unfold log_self_ip. rewrite ip_mh.
  match goal with |- context [if ?b then _ else Err] => change b with true end. cbv iota. cbn [bind]. destruct (Nat.eqb_spec steps 0); [lia|].
  assert (forall y, In y xs1 -> in_support (cat2 [0]%nat 1 p23) y) as IS.
  { intros y Hy. constructor; [|constructor]. cbn [fl_scope mk_fleaf query fl_fam length]. intros f c r Hf _ _. replace f with 0%nat by lia.
    destruct (assignments_In _ _ _ _ Hy) as [H _]. destruct (H 0%nat ltac:(now left)) as (a & Ha & E). 
    apply in_map_iff in Ha. destruct Ha as (k & <- & Hk). apply in_seq in Hk. exists (INR k). split; [exact E|apply cat_supp; lia]. }
  pose proof mhC_ok as [[B U] _ _ _ US _ _]. apply built_wf in B.
  unfold tables, proposal_of. cbn [contains_signed cat2]. cbn [bind].
  match goal with |- context [mapR (fun x => seval x ?m) xs1] => destruct (mapR_all (fun x => seval x m) xs1) as (ts & ->) end.
  { intros y Hy. apply (seval_ok y (cat2 [0]%nat 1 p23)); auto. exact I. }
  cbn [bind].
  match goal with |- context [mapR (fun x => mll x ?m) xs1] => destruct (mapR_all (fun x => mll x m) xs1) as (qs & ->) end.
  { intros y Hy. apply (mll_ok y (cat2 [0]%nat 1 p23)); auto. exact I. }
  cbn [bind]. eauto.
Qed.

(** ** structural marginalisation squares the marginals (C94) *)
Definition margC : smod :=
  SSum (SLeaf (SFam (mk_fleaf (mkScope [0]%nat []) 2 1 (fun f c _ => FCategorical 2 (fun k => ln (pm (nth f [0]%nat 0%nat) c k))))))
    1 1 (fun f i o r => ln (softmax 2 (fun _ => 0) i)).
Lemma margC_eq : socs_marginalize [1]%nat true [compM] = Ok (Some [margC]).
Proof. reflexivity. Qed.
Lemma margC_val (k : nat) y : (k < 2)%nat -> y 0%nat = Some (INR k) -> fun_of margC y 0%nat 0%nat 0%nat = / 2 * pm 0 0 k + / 2 * pm 0 1 k.
Proof.
  intros Hk Hy. unfold margC. cbn [fun_of schan skel out_shape channels l_ch sl_ch fl_ch mk_fleaf bsum]. unfold schan.
  cbn [skel out_shape channels l_ch sl_ch fl_ch mk_fleaf bsum].
  assert (forall i, (i < 2)%nat -> softmax 2 (fun j => ln (softmax 2 (fun _ => 0) j)) i = / 2) as S.
  { intros i Hi. rewrite (softmax2 (fun j => softmax 2 (fun _ => 0) j)); auto; rewrite ?unif2 by lia; lra. }
  rewrite !S by lia. unfold leaf_fun. cbn [sl_scope fl_scope mk_fleaf query nth fl_fam]. rewrite Hy, !pr_categorical, !pm_soft by assumption. ring.
Qed.
Lemma compM_val (k j : nat) y : (k < 2)%nat -> (j < 2)%nat -> y 0%nat = Some (INR k) -> y 1%nat = Some (INR j) ->
  fun_of compM y 0%nat 0%nat 0%nat = / 2 * (pm 0 0 k * pm 1 0 j) + / 2 * (pm 0 1 k * pm 1 1 j).
Proof.
  intros Hk Hj Hy Hz. unfold compM, cat2. cbn [fun_of]. unfold schan, sfeat. cbn [skel out_shape channels features l_ch sl_ch fl_ch mk_fleaf bsum bprod l_scope sl_scope fl_scope query length].
  unfold leaf_fun. cbn [sl_scope fl_scope mk_fleaf query nth fl_fam]. rewrite Hy, Hz, !pr_categorical, !pm_soft, !unif2 by (assumption || lia). ring.
Qed.
Lemma margC_ok : component 1 two margC.
Proof.
  constructor.
  - split; [cbn; apply b_sum; cbn; try lia; apply b_leaf; reflexivity|cbn; auto].
  - repeat constructor.
  - constructor; [|constructor]. cbn. intros. split; [reflexivity|left; reflexivity].
  - intros la lb [<-|[]] [<-|[]] _. cbn. intros. exact I.
  - constructor; [|constructor]. intros f c r _ a. reflexivity.
  - split; [exact I|]. constructor; [exact I|constructor].
  - cbn. constructor; [exact I|constructor].
Qed.
Lemma one_value m y k t : component 1 two m -> inner_product_matrix m m = Ok k -> tiny <= k 0%nat 0%nat 0%nat 0%nat -> pos_ok 1 m 0 0 0 ->
  complete m y -> socs_ll [m] y = Ok t -> pr (t 0%nat 0%nat 0%nat) = fun_of m y 0%nat 0%nat 0%nat ^ 2 / k 0%nat 0%nat 0%nat 0%nat.
Proof.
  intros [C1 C2 C3 C4 C5 C6 C7] Ek HT P HC Et.
  assert (exists Z, partition [m] = Ok Z /\ Z 0%nat 0%nat 0%nat = k 0%nat 0%nat 0%nat 0%nat) as (Z & EZ & VZ).
  { eexists. split; [unfold partition; cbn [mapR]; rewrite Ek; reflexivity|]. cbn. ring. }
  assert (Forall (fun m => constructed 1 m /\ uniform_support m /\ exact_weights m /\ strong_root m /\ complete m y /\ pos_ok 1 m 0 0 0) [m]) as F
    by (constructor; [tauto|constructor]).
  rewrite (socs_value 1 [m] y t Z 0%nat 0%nat 0%nat F EZ Et).
  rewrite VZ, Rmax_left by assumption. unfold squares. cbn [map lsumR]. f_equal. ring.
Qed.
Definition K_mg : T4 := ip2 slipv margC margC.
Lemma ip_mg : inner_product_matrix margC margC = Ok K_mg. Proof. reflexivity. Qed.
Lemma val_mg : K_mg 0%nat 0%nat 0%nat 0%nat = 34 / 64.
Proof.
  assert (forall i, (i < 2)%nat -> softmax 2 (fun j => ln (softmax 2 (fun _ => 0) j)) i = / 2) as S.
  { intros i Hi. rewrite (softmax2 (fun j => softmax 2 (fun _ => 0) j)); auto; rewrite ?unif2 by lia; lra. }
  unfold K_mg. cbn -[softmax pm]. rewrite !S, !pm_soft by lia. unfold pm. field.
Qed.
Definition rowkj (k j : nat) : row := fun v => match v with O => Some (INR k) | 1%nat => Some (INR j) | _ => None end.
Lemma margC_gap t t0 t1 : socs_ll [margC] (rowkj 0 0) = Ok t -> socs_ll [compM] (rowkj 0 0) = Ok t0 -> socs_ll [compM] (rowkj 0 1) = Ok t1 ->
  pr (t 0%nat 0%nat 0%nat) = 25 / 34 /\ pr (t0 0%nat 0%nat 0%nat) + pr (t1 0%nat 0%nat 0%nat) = 218 / 292.
Proof.
  intros E E0 E1. pose proof tiny_small as T.
  assert (tiny <= / 10) as T' by (unfold tiny; replace 10 with (10 ^ 1) at 2 by ring; apply Rinv_le_contravar; [lra|apply Rle_pow; [lra|lia]]).
  assert (forall k j, complete margC (rowkj k j)) as H1.
  { intros k j. split; [intros v [<-|[]]; cbn; eauto|]. constructor; [exact I|constructor]. }
  assert (forall k j, complete compM (rowkj k j)) as H2.
  { intros k j. split; [intros v [<-|[<-|[]]]; cbn; eauto|]. constructor; [exact I|constructor]. }
  rewrite (one_value margC (rowkj 0 0) _ t margC_ok ip_mg ltac:(rewrite val_mg; lra) ltac:(constructor; cbn; lia) (H1 _ _) E).
  rewrite (one_value compM (rowkj 0 0) _ t0 compM_ok ip_M ltac:(rewrite val_M; lra) ltac:(constructor; cbn; lia) (H2 _ _) E0).
  rewrite (one_value compM (rowkj 0 1) _ t1 compM_ok ip_M ltac:(rewrite val_M; lra) ltac:(constructor; cbn; lia) (H2 _ _) E1).
  rewrite val_M, val_mg. rewrite (margC_val 0), (compM_val 0 0), (compM_val 0 1) by (reflexivity || lia). unfold pm. split; field.
Qed.
