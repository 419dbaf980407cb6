(** ConvPc: which image sizes work, and what the assembled circuit looks like. *)
From Coq Require Import List Arith Bool Lia Lra.
From Verif Require Import Base ScopeModel CircuitModel CircuitSpec CircuitBasics CircuitEval CircuitMarg SampleModel ConvModel ConvSpec ConvProofs ConvSample.
Import ListNotations.
Local Open Scope nat_scope.

Lemma side_sq v n : features (vshape v) = n * n -> side v = n.
Proof. intros E. unfold side. rewrite E. apply Nat.sqrt_square. Qed.

Lemma conv_out_mult k n : 1 <= k -> conv_out (k * n) k 0 = n.
Proof. intros Hk. unfold conv_out. rewrite Nat.mul_0_r, Nat.add_0_r, Nat.mul_comm. apply Nat.div_mul. lia. Qed.

(** one sum layer of the stack *)
Lemma layer_ok (use : bool) ch k ls lc cur s n : 1 <= ch -> 1 <= k -> vwf cur -> features (vshape cur) = (k * n) * (k * n) ->
  vll_shape cur = Ok s -> repetitions s = 1 ->
  exists v, (if use then mk_sumconv cur ch k 1 lc else mk_vsum cur ch 1 ls) = Ok v /\ vwf v /\
    features (vshape v) = features (vshape cur) /\ vbase v = vbase cur /\ vleaves v = vleaves cur /\
    (covered cur -> covered v) /\ (exact_fit cur -> exact_fit v) /\
    vll_shape v = Ok (mkShape (features (vshape cur)) ch 1).
Proof.
  intros Hc Hk W EF L R. destruct (vll_shape_spec cur s W L) as (E1 & E2 & E3).
  pose proof (side_sq _ _ EF) as SD. destruct use.
  - exists (VSumConv cur ch k 1 lc). split; [now apply mk_sumconv_ok|]. cbn [vwf vshape features vbase vleaves covered exact_fit].
    repeat split; auto.
    + rewrite SD. rewrite Nat.mul_comm. apply Nat.mod_mul. lia.
    + cbn [vll_shape]. rewrite L. cbn [bind]. rewrite R, E1, E2. cbn [Nat.eqb Nat.ltb Nat.leb andb negb].
      rewrite EF, Nat.sqrt_square, Nat.eqb_refl. cbn [negb].
      assert ((k * n) mod k = 0) as -> by (rewrite Nat.mul_comm; apply Nat.mod_mul; lia).
      cbn [Nat.eqb negb]. rewrite andb_false_r, bcast_same. reflexivity.
  - exists (VSum cur ch 1 ls). split; [now apply mk_vsum_ok|]. cbn [vwf vshape features vbase vleaves covered exact_fit].
    repeat split; auto. cbn [vll_shape]. rewrite L. cbn [bind]. rewrite R, E1, E2, !bcast_same. reflexivity.
Qed.

Lemma stack_ok use ch k ls lc : 1 <= ch -> 1 <= k -> forall d cur s, vwf cur -> features (vshape cur) = k ^ d * k ^ d ->
  vll_shape cur = Ok s -> repetitions s = 1 -> covered cur ->
  exists v t, conv_stack use ch k ls lc d cur = Ok v /\ vwf v /\ features (vshape v) = 1 /\ vbase v = vbase cur /\
    vleaves v = vleaves cur /\ covered v /\ (exact_fit cur -> exact_fit v) /\ vll_shape v = Ok t /\ repetitions t = 1.
Proof.
  intros Hc Hk. induction d as [|d IH]; intros cur s W EF L R C.
  - exists cur, s. cbn in EF. repeat split; auto.
  - cbn [Nat.pow] in EF. destruct (layer_ok use ch k (ls d) (lc d) cur s (k ^ d) Hc Hk W EF L R) as (p & Ep & Wp & Fp & Bp & Lp & Cp & Xp & Lls).
    specialize (Cp C). rewrite <- Fp in EF. pose proof (side_sq _ _ EF) as SD.
    destruct (IH (VProdConv p k k 0 0) (mkShape (k ^ d * k ^ d) ch 1)) as (v & t & EV & Wv & Fv & Bv & Lv & Cv & Xv & Lt & Rt); auto.
    + cbn [vwf]. repeat split; auto. now rewrite SD.
    + cbn [vshape features]. fold (side p). rewrite SD, conv_out_mult by exact Hk. reflexivity.
    + cbn [vll_shape]. rewrite Lls. cbn [bind features channels repetitions]. rewrite SD, <- Fp, EF, Nat.eqb_refl. cbn [negb].
      assert (k <= k * k ^ d + 2 * 0) as Hle by (pose proof (Nat.pow_nonzero k d ltac:(lia)); nia).
      apply Nat.leb_le in Hle. rewrite Hle. cbn [andb]. now rewrite conv_out_mult by exact Hk.
    + cbn [covered]. rewrite SD, conv_out_mult by exact Hk. repeat split; auto; lia.
    + exists v, t. repeat split; auto.
      * cbn [conv_stack]. rewrite Ep. cbn [bind]. unfold mk_prodconv.
        destruct (Nat.ltb_spec k 1); [lia|]. rewrite SD, EF, Nat.eqb_refl. cbn [bind]. exact EV.
      * now rewrite Bv.
      * now rewrite Lv.
      * intros X. apply Xv. cbn [exact_fit]. split; [now apply Xp|]. rewrite SD. repeat split; rewrite Nat.mul_comm; apply Nat.mod_mul; lia.
Qed.

Lemma ceil_spec n t : 1 <= t -> n <= ceil_div n t * t /\ (1 <= n -> 1 <= ceil_div n t /\ (ceil_div n t - 1) * t < n).
Proof.
  intros Ht. unfold ceil_div. pose proof (Nat.div_mod (n + t - 1) t ltac:(lia)) as E.
  pose proof (Nat.mod_upper_bound (n + t - 1) t ltac:(lia)) as B. set (q := (n + t - 1) / t) in *. set (m := (n + t - 1) mod t) in *.
  split; [nia|]. intros Hn. split; [|]; destruct q; nia.
Qed.

Lemma fit_even n t : 1 <= t -> 1 <= n -> fits n t ->
  conv_out n (fit_kernel n t) (fit_padding n t) = t /\ n + fit_padding n t <= fit_kernel n t * t /\ 1 <= fit_kernel n t.
Proof.
  intros Ht Hn Hf. unfold fits in Hf. fold (fit_kernel n t) in Hf. unfold fit_padding, conv_out. set (k := fit_kernel n t) in *.
  destruct (ceil_spec n t Ht) as [C1 C2]. destruct (C2 Hn) as [C3 C4]. fold (fit_kernel n t) in C1, C3, C4. fold k in C1, C3, C4.
  pose proof (Nat.div_mod (k * t - n) 2 ltac:(lia)) as E. rewrite Hf in E. set (p := (k * t - n) / 2) in *.
  assert (n + 2 * p = t * k) as -> by nia. rewrite Nat.div_mul by lia. repeat split; nia.
Qed.

Lemma fit_odd n t : 1 <= t -> 1 <= n -> ~ fits n t -> conv_out n (fit_kernel n t) (fit_padding n t) = t - 1 /\ 1 <= fit_kernel n t /\ fit_kernel n t <= n + 2 * fit_padding n t \/ t = 1.
Proof.
  intros Ht Hn Hf. unfold fits in Hf. fold (fit_kernel n t) in Hf. unfold fit_padding, conv_out. set (k := fit_kernel n t) in *.
  destruct (ceil_spec n t Ht) as [C1 C2]. destruct (C2 Hn) as [C3 C4]. fold (fit_kernel n t) in C1, C3, C4. fold k in C1, C3, C4.
  destruct (Nat.eq_dec t 1) as [->|Nt]; [now right|left].
  pose proof (Nat.div_mod (k * t - n) 2 ltac:(lia)) as E. pose proof (Nat.mod_upper_bound (k * t - n) 2 ltac:(lia)).
  assert ((k * t - n) mod 2 = 1) as M by lia. rewrite M in E. set (p := (k * t - n) / 2) in *.
  assert (n + 2 * p = (t - 1) * k + (k - 1)) as EQ by nia. rewrite EQ.
  split; [|split; [exact C3|nia]]. rewrite Nat.div_add_l by lia. rewrite Nat.div_small; lia.
Qed.

Lemma fit_one n : 1 <= n -> fits n 1.
Proof. intros Hn. unfold fits, fit_kernel, ceil_div. replace (n + 1 - 1) with n by lia. rewrite Nat.div_1_r. replace (n * 1 - n) with 0 by lia. reflexivity. Qed.

Lemma fit_exact n t : 1 <= t -> 1 <= n -> n mod t = 0 -> fit_kernel n t * t = n /\ fit_padding n t = 0 /\ fits n t.
Proof.
  intros Ht Hn Hm. assert (fit_kernel n t * t = n) as E.
  { destruct (ceil_spec n t Ht) as [C1 C2]. destruct (C2 Hn) as [C3 C4]. fold (fit_kernel n t) in *.
    pose proof (Nat.div_mod n t ltac:(lia)) as E. rewrite Hm in E. set (k := fit_kernel n t) in *. set (q := n / t) in *.
    assert (q = k) by nia. nia. }
  unfold fits. fold (fit_kernel n t). unfold fit_padding. rewrite E, Nat.sub_diag. auto.
Qed.

(** the accepted sizes *)
Lemma conv_pc_ok leaf sl n ch depth k use ls lc lroot : wf leaf -> aligned leaf -> features (out_shape leaf) = n * n ->
  ll_shape leaf = Ok sl -> repetitions sl = 1 -> 1 <= n -> 1 <= ch -> 1 <= k -> 1 <= depth -> fits n (k ^ depth) ->
  exists v, conv_pc leaf n n ch depth k 1 use ls lc lroot = Ok v /\ vwf v /\ vbase v = leaf /\ vleaves v = leaves_of leaf /\
    covered v /\ vshape v = mkShape 1 1 1 /\ vll_shape v = Ok (mkShape 1 1 1) /\ (n mod k ^ depth = 0 -> exact_fit v).
Proof.
  intros Wl Al EF Ll Rl Hn Hc Hk Hd Hf. set (t := k ^ depth) in *.
  assert (1 <= t) as Ht by (pose proof (Nat.pow_nonzero k depth ltac:(lia)); unfold t; lia).
  destruct (fit_even n t Ht Hn Hf) as (CO & CV & KP). set (kk := fit_kernel n t) in *. set (p := fit_padding n t) in *.
  assert (side (VMod leaf) = n) as SD by (apply side_sq; exact EF).
  set (b := VProdConv (VMod leaf) kk kk p p).
  destruct (ll_shape_spec leaf sl Wl Ll) as (E1 & E2 & E3).
  destruct (stack_ok use ch k ls lc Hc Hk depth b (mkShape (t * t) (channels sl) 1)) as (v & s & EV & Wv & Fv & Bv & Lv & Cv & Xv & Lt & Rt).
  - unfold b. cbn [vwf]. repeat split; auto. rewrite SD. symmetry. exact EF.
  - unfold b. cbn [vshape features]. change (Nat.sqrt (features (out_shape leaf))) with (side (VMod leaf)). rewrite SD, CO. reflexivity.
  - unfold b. cbn [vll_shape]. rewrite Ll. cbn [bind]. rewrite SD, E1, EF, Nat.eqb_refl. cbn [negb].
    assert (kk <= n + 2 * p) as Hle.
    { unfold conv_out in CO. destruct (Nat.lt_ge_cases (n + 2 * p) kk) as [C|C]; [|exact C]. rewrite Nat.div_small in CO; lia. }
    apply Nat.leb_le in Hle. rewrite Hle. cbn [andb]. rewrite CO, Rl. reflexivity.
  - reflexivity.
  - unfold b. cbn [covered]. rewrite SD, CO. repeat split; lia.
  - destruct (vll_shape_spec v s Wv Lt) as (G1 & G2 & G3).
    exists (VSum v 1 1 lroot). cbn [vwf vbase vleaves covered exact_fit vshape]. rewrite Fv.
    repeat split; auto.
    + unfold conv_pc. cbn [Nat.eqb negb]. destruct (Nat.ltb_spec depth 1); [lia|]. destruct (Nat.ltb_spec ch 1); [lia|].
      fold t. destruct (Nat.eqb_spec n 0); [lia|]. destruct (Nat.eqb_spec t 0); [lia|]. cbn [orb].
      unfold mk_prodconv. fold kk. destruct (Nat.ltb_spec kk 1); [lia|]. rewrite SD. change (features (vshape (VMod leaf))) with (features (out_shape leaf)).
      rewrite EF, Nat.eqb_refl. cbn [bind]. fold p. fold b. rewrite EV. cbn [bind]. reflexivity.
    + cbn [vll_shape]. rewrite Lt. cbn [bind]. rewrite G1, G2, Fv, Rt, !bcast_same. reflexivity.
    + intros Hm. apply Xv. unfold b. cbn [exact_fit]. rewrite SD. destruct (fit_exact n t Ht Hn Hm) as (X1 & X2 & _). fold kk in X1. fold p in X2.
      assert (n mod kk = 0) as Hz by (rewrite <- X1, Nat.mul_comm; apply Nat.mod_mul; lia).
      repeat split; auto.
Qed.

(** the other sizes: the circuit is built, but every evaluation raises *)
Lemma stack_err use ch k ls lc : 1 <= ch -> 2 <= k -> forall d cur, vwf cur -> features (vshape cur) = (k ^ d - 1) * (k ^ d - 1) ->
  d <> 0 \/ vll_shape cur = Err -> exists v, conv_stack use ch k ls lc d cur = Ok v /\ vll_shape v = Err.
Proof.
  intros Hc Hk. induction d as [|d IH]; intros cur W EF HE.
  - exists cur. split; [reflexivity|]. destruct HE as [H|H]; [congruence|exact H].
  - clear HE. set (p := if use then VSumConv cur ch k 1 (lc d) else VSum cur ch 1 (ls d)).
    assert ((if use then mk_sumconv cur ch k 1 (lc d) else mk_vsum cur ch 1 (ls d)) = Ok p) as Ep.
    { unfold p. destruct use; [apply mk_sumconv_ok; repeat split; auto; lia|apply mk_vsum_ok; auto]. }
    assert (features (vshape p) = (k ^ S d - 1) * (k ^ S d - 1)) as Fp by (unfold p; destruct use; exact EF).
    assert (vwf p) as Wp by (unfold p; destruct use; cbn; repeat split; auto; lia).
    clearbody p. pose proof (side_sq _ _ Fp) as SD.
    assert (conv_out (k ^ S d - 1) k 0 = k ^ d - 1) as CO.
    { unfold conv_out. rewrite Nat.mul_0_r, Nat.add_0_r. cbn [Nat.pow]. pose proof (Nat.pow_nonzero k d ltac:(lia)).
      replace (k * k ^ d - 1) with ((k ^ d - 1) * k + (k - 1)) by nia. rewrite Nat.div_add_l by lia. rewrite Nat.div_small; lia. }
    destruct (IH (VProdConv p k k 0 0)) as (v & EV & LV).
    + cbn [vwf]. split; [exact Wp|]. split; [lia|]. split; [lia|]. now rewrite SD.
    + cbn [vshape features]. fold (side p). rewrite SD, CO. reflexivity.
    + destruct d as [|d]; [right|left; lia]. cbn [vll_shape]. destruct (vll_shape p) as [sp|] eqn:Ls; cbn [bind]; [|reflexivity].
      destruct (vll_shape_spec p sp Wp Ls) as (G1 & _). rewrite SD, G1, Fp, Nat.eqb_refl. cbn [negb Nat.pow].
      replace (k * 1 - 1 + 2 * 0) with (k - 1) by lia. destruct (Nat.leb_spec k (k - 1)); [lia|reflexivity].
    + exists v. split; [|exact LV]. cbn [conv_stack]. rewrite Ep. cbn [bind]. unfold mk_prodconv.
      destruct (Nat.ltb_spec k 1); [lia|]. rewrite SD, Fp, Nat.eqb_refl. cbn [bind]. exact EV.
Qed.

Lemma conv_pc_odd leaf n ch depth k use ls lc lroot : wf leaf -> aligned leaf -> features (out_shape leaf) = n * n ->
  1 <= n -> 1 <= ch -> 1 <= k -> 1 <= depth -> ~ fits n (k ^ depth) ->
  exists v, conv_pc leaf n n ch depth k 1 use ls lc lroot = Ok v /\ vll_shape v = Err.
Proof.
  intros Wl Al EF Hn Hc Hk1 Hd Hf. set (t := k ^ depth) in *.
  assert (2 <= k) as Hk.
  { destruct (Nat.eq_dec k 1) as [->|]; [|lia]. exfalso. apply Hf. unfold t. rewrite Nat.pow_1_l. now apply fit_one. }
  assert (1 <= t) as Ht by (pose proof (Nat.pow_nonzero k depth ltac:(lia)); unfold t; lia).
  destruct (fit_odd n t Ht Hn Hf) as [(CO & KP & KL)|E1]; [|exfalso; apply Hf; rewrite E1; now apply fit_one].
  set (kk := fit_kernel n t) in *. set (p := fit_padding n t) in *.
  assert (side (VMod leaf) = n) as SD by (apply side_sq; exact EF).
  set (b := VProdConv (VMod leaf) kk kk p p).
  destruct (stack_err use ch k ls lc Hc Hk depth b) as (v & EV & LV).
  - unfold b. cbn [vwf]. repeat split; auto. rewrite SD. symmetry. exact EF.
  - unfold b. cbn [vshape features]. change (Nat.sqrt (features (out_shape leaf))) with (side (VMod leaf)). rewrite SD, CO. reflexivity.
  - left. lia.
  - exists (VSum v 1 1 lroot). split.
    + unfold conv_pc. cbn [Nat.eqb negb]. destruct (Nat.ltb_spec depth 1); [lia|]. destruct (Nat.ltb_spec ch 1); [lia|].
      fold t. destruct (Nat.eqb_spec n 0); [lia|]. destruct (Nat.eqb_spec t 0); [lia|]. cbn [orb].
      unfold mk_prodconv. fold kk. destruct (Nat.ltb_spec kk 1); [lia|]. rewrite SD. change (features (vshape (VMod leaf))) with (features (out_shape leaf)).
      rewrite EF, Nat.eqb_refl. cbn [bind]. fold p. fold b. rewrite EV. cbn [bind]. reflexivity.
    + cbn [vll_shape]. rewrite LV. reflexivity.
Qed.
