(** Einet as a whole. *)
From Coq Require Import List Arith Bool Reals Lia Lra Permutation.
From Verif Require Import Base ScopeModel ScopeProofs CircuitModel CircuitSpec CircuitBasics CircuitEval Integral CircuitMarg CircuitProps
  SampleModel EmModel SplitModel SplitProofs LayerModel LayerSpec LayerProofs FactorModel FactorProofs FactorTop
  StackModel StackSpec StackProofs StackDist StackTop StackRat StackNan StackRatTop StackEinSpec.
Import ListNotations.
Local Open Scope R_scope.

Lemma goods_one o ds s : decl o ds = Ok (mkShape (features (semsh o s)) (channels (semsh o s)) (match decl o ds with Ok q => repetitions q | Err => 0%nat end)) ->
  agree ds s -> fits o s (semsh o s) -> mix_ok o s -> (match o with OProd _ _ _ => decl o ds = Ok (semsh o s) | _ => True end) ->
  exists de, goods [o] ds s de /\ agree de (semsh o s).
Proof.
  intros E A F M P. destruct (decl o ds) as [ds'|] eqn:Ed; [|discriminate]. exists ds'.
  assert (A' : agree ds' (semsh o s)) by (injection E as ->; split; reflexivity).
  split; [|exact A']. econstructor; [exact Ed|exact A| |exact M|exact A'|apply g_nil].
  destruct F as (F1 & F2 & F3). split; [exact F1|]. split; [exact F2|]. destruct o; try exact F3. injection P as ->. exact F3.
Qed.

Lemma pair_weight_eq C lg f o r i j : (j < C)%nat ->
  pair_weight C C lg f o r i j = exp (lg f o r i j) / bsum C (fun a => bsum C (fun b => exp (lg f o r a b))).
Proof.
  intros Hj. unfold pair_weight, softmax, flat_logits. rewrite bsum_flat by lia.
  assert (E : forall a b, (b < C)%nat -> ((a * C + b) / C = a /\ (a * C + b) mod C = b)%nat).
  { intros a b Hb. split; symmetry; [apply Nat.div_unique with (r := b)|apply Nat.mod_unique with (q := a)]; lia. }
  destruct (E i j Hj) as [-> ->]. f_equal. apply bsum_ext. intros a Ha. apply bsum_ext. intros b Hb. destruct (E a b Hb) as [-> ->]. reflexivity.
Qed.

Section Levels.
Variables (c : ein_cfg) (p : ein_par) (C0 w n : nat) (ix : nat -> nat) (ch : nat -> nat).
Hypothesis (Hw : (0 < w)%nat) (HR : (0 < ei_reps c)%nat) (Hch : forall l, (0 < ch l)%nat).
Definition esh (l : nat) : shape := mkShape (w * 2 ^ (n - l)) (ch l) (ei_reps c).
Definition elayers (l : nat) : list op := map (fun i => ein_layer c p (ix i) (ch (S i))) (seq 0 l).
Lemma esh_half l : (l < n)%nat -> (w * 2 ^ (n - l) = (w * 2 ^ (n - S l)) * 2)%nat.
Proof. intros H. rewrite (pow_half (n - l)) by lia. replace (n - l - 1)%nat with (n - S l)%nat by lia. lia. Qed.
Lemma elayer_semsh l : (l < n)%nat -> semsh (ein_layer c p (ix l) (ch (S l))) (esh l) = esh (S l).
Proof.
  intros Hl. unfold ein_layer. destruct (ei_type c); cbn [semsh esh features channels repetitions]; unfold esh;
  rewrite (esh_half l Hl), Nat.div_mul by lia; reflexivity.
Qed.
Lemma elayer_good l : (l < n)%nat -> goods [ein_layer c p (ix l) (ch (S l))] (esh l) (esh l) (esh (S l)).
Proof.
  intros Hl. pose proof (elayer_semsh l Hl) as E. pose proof (pow_pos (n - S l)) as PP.
  assert (W : (0 < w * 2 ^ (n - S l))%nat) by nia.
  assert (D : decl (ein_layer c p (ix l) (ch (S l))) (esh l) = Ok (esh (S l))).
  { rewrite <- E. unfold ein_layer. pose proof (Hch (S l)).
    assert (X1 : Nat.ltb (w * 2 ^ (n - l)) 2 = false) by (apply Nat.ltb_ge; rewrite (esh_half l Hl); lia).
    assert (X2 : Nat.eqb ((w * 2 ^ (n - l)) mod 2) 0 = true) by (apply Nat.eqb_eq; rewrite (esh_half l Hl); apply Nat.mod_mul; lia).
    assert (X3 : Nat.ltb (ch (S l)) 1 = false) by (apply Nat.ltb_ge; lia).
    destruct (ei_type c); cbn [decl esh features channels repetitions semsh]; rewrite X1, X2, X3; reflexivity. }
  eapply g_cons with (ds' := esh (S l)); [exact D|split; reflexivity| | |rewrite E; split; reflexivity|rewrite E; apply g_nil].
  - split; [apply Hch|]. split; [exact HR|]. unfold ein_layer.
    destruct (ei_type c); (split; [reflexivity|]; exists (w * 2 ^ (n - S l))%nat; split; [exact W|exact (esh_half l Hl)]).
  - unfold ein_layer. destruct (ei_type c); exact I.
Qed.
Lemma elayers_good l : (l <= n)%nat -> goods (elayers l) (esh 0) (esh 0) (esh l) /\ shs (elayers l) (esh 0) = esh l.
Proof.
  induction l as [|l IH]; intros Hl.
  - split; [apply g_nil|reflexivity].
  - destruct (IH ltac:(lia)) as [G E]. unfold elayers in *. rewrite seq_S, map_app, plus_O_n. cbn [map]. split.
    + eapply goods_app; [exact G|]. rewrite E. apply elayer_good. lia.
    + rewrite shs_app, E. cbn [shs]. apply elayer_semsh. lia.
Qed.
Lemma elayers_sem P l : (l <= n)%nat -> forall f o r, in_shape (esh l) f o r ->
  sems (elayers l) (esh 0) P f o r
  = einode (is_linsum c) ch (fun l => ep_lin p (ix l)) (fun l => ep_ein p (ix l)) P l f o r.
Proof.
  induction l as [|l IH]; intros Hl f o r IN; [reflexivity|]. specialize (IH ltac:(lia)).
  destruct (elayers_good l ltac:(lia)) as [_ E]. unfold elayers in *. rewrite seq_S, map_app, plus_O_n. cbn [map].
  rewrite sems_app, E. cbn [sems einode]. destruct IN as (If & Io & Ir). cbn [esh features channels repetitions] in If, Io, Ir.
  assert (IN : forall i q, (i < 2)%nat -> (q < ch l)%nat -> in_shape (esh l) (2 * f + i) q r).
  { intros i q Hi Hq. split; [|split; [exact Hq|exact Ir]]. cbn [esh features]. rewrite (esh_half l) by lia. lia. }
  assert (IN0 : forall q, (q < ch l)%nat -> in_shape (esh l) (2 * f) q r).
  { intros q Hq. replace (2 * f)%nat with (2 * f + 0)%nat by lia. apply IN; [lia|exact Hq]. }
  unfold ein_layer, is_linsum in *. destruct (ei_type c); cbn [sem esh channels].
  - apply bsum_ext. intros i Hi. apply bsum_ext. intros j Hj. rewrite pair_weight_eq by exact Hj. apply (f_equal2 Rmult); [reflexivity|apply (f_equal2 Rmult)].
    + apply IH, IN0, Hi.
    + apply IH, IN; [lia|exact Hj].
  - apply bsum_ext. intros i Hi. apply (f_equal2 Rmult); [reflexivity|apply (f_equal2 Rmult)].
    + apply IH, IN0, Hi.
    + apply IH, IN; [lia|exact Hi].
Qed.
End Levels.

(** [does ops s s' V]: on every declared shape agreeing with [s] the layers [ops] can be
    stacked; they give a tensor of shape [s'] with the values [V] *)
Definition does (ops : list op) (s s' : shape) (V : (nat -> nat -> nat -> R) -> nat -> nat -> nat -> R) : Prop :=
  (forall ds, agree ds s -> exists de, goods ops ds s de /\ agree de s') /\ shs ops s = s' /\
  forall P f o r, in_shape s' f o r -> sems ops s P f o r = V P f o r.
Lemma does_nil s s' V : s = s' -> (forall P f o r, in_shape s' f o r -> P f o r = V P f o r) -> does [] s s' V.
Proof. intros -> H. split; [intros ds A; exists ds; split; [apply g_nil|exact A]|]. split; [reflexivity|exact H]. Qed.
Lemma does_app a b s s1 s2 V W : does a s s1 V -> does b s1 s2 W ->
  (forall P Q f o r, (forall f o r, in_shape s1 f o r -> P f o r = Q f o r) -> in_shape s2 f o r -> W P f o r = W Q f o r) ->
  does (a ++ b) s s2 (fun P => W (V P)).
Proof.
  intros (A1 & A2 & A3) (B1 & B2 & B3) HW. split; [|split].
  - intros ds A. destruct (A1 ds A) as (de & G & A'). destruct (B1 de A') as (df & G' & A''). exists df. split; [|exact A''].
    eapply goods_app; [exact G|]. rewrite A2. exact G'.
  - rewrite shs_app, A2. exact B2.
  - intros P f o r IN. rewrite sems_app, A2, B3 by exact IN. apply HW; [exact (A3 P)|exact IN].
Qed.

Section Top.
Variables (c : ein_cfg) (p : ein_par).
Hypothesis (Hcl : (1 <= ei_classes c)%nat) (Hsu : (1 <= ei_sums c)%nat) (HR : (1 <= ei_reps c)%nat).
Lemma osum_does co lg F C : (0 < C)%nat -> (0 < co)%nat ->
  does [OSum co (ei_reps c) lg] (mkShape F C (ei_reps c)) (mkShape F co (ei_reps c))
    (fun P f o r => bsum C (fun i => softmax C (fun j => lg f j o r) i * P f i r)).
Proof.
  intros HC Hco. split; [|split; reflexivity].
  intros ds [A1 A2]. exists (mkShape F co (ei_reps c)). split; [|split; reflexivity].
  eapply g_cons with (ds' := mkShape F co (ei_reps c)); [|split; assumption| |exact I|split; reflexivity|apply g_nil].
  - unfold decl. destruct (Nat.ltb_spec co 1); [lia|]. rewrite A1. reflexivity.
  - split; [exact HC|]. split; [exact HR|reflexivity].
Qed.
(** collapsing the features *)
Lemma collapse_does (b : bool) F C : (0 < F)%nat -> (0 < C)%nat -> (b = false -> F = 1%nat) ->
  does (if (b && Nat.ltb 1 F)%bool then [OAll] else []) (mkShape F C (ei_reps c)) (mkShape 1 C (ei_reps c))
    (fun P f o r => bprod F (fun g => P g o r)).
Proof.
  intros HF HC Hb. destruct (Nat.ltb_spec 1 F) as [L|L].
  - destruct b; [|specialize (Hb eq_refl); lia]. cbn [andb]. split; [|split; reflexivity].
    intros ds [A1 A2]. exists (mkShape 1 C (repetitions ds)). split; [|split; reflexivity].
    eapply g_cons with (ds' := mkShape 1 C (repetitions ds)); [|split; assumption| |exact I|split; reflexivity|apply g_nil].
    + unfold decl. cbn [channels] in A2. now rewrite A2.
    + split; [exact HC|]. split; [exact HR|exact I].
  - assert (F = 1)%nat by lia. subst F. rewrite andb_false_r. apply does_nil; [reflexivity|].
    intros P f o r (If & _). cbn [features] in If. replace f with 0%nat by lia. cbn [bprod]. ring.
Qed.
(** to the classes *)
Lemma class_does C : (0 < C)%nat ->
  does (if negb (Nat.eqb C (ei_classes c)) then [OSum (ei_classes c) (ei_reps c) (ep_class p)] else [])
    (mkShape 1 C (ei_reps c)) (mkShape 1 (ei_classes c) (ei_reps c))
    (fun P f k r => if Nat.eqb C (ei_classes c) then P f k r
                    else bsum C (fun i => softmax C (fun j => ep_class p f j k r) i * P f i r)).
Proof.
  intros HC. destruct (Nat.eqb_spec C (ei_classes c)) as [E|E]; cbn [negb].
  - apply does_nil; [now rewrite E|reflexivity].
  - apply osum_does; [exact HC|lia].
Qed.
Lemma mix_does :
  does ((if Nat.ltb 1 (ei_reps c) then [OMix (ei_classes c) (ei_reps c) (ep_mix p)] else [])
        ++ (if Nat.ltb 1 (ei_classes c) then [OSum 1 1 (ep_root p)] else []))
    (mkShape 1 (ei_classes c) (ei_reps c)) (mkShape 1 1 1)
    (fun P _ _ _ => mixed (ei_classes c) (ei_reps c) (ep_mix p 0%nat) (fun j => ep_root p 0%nat j 0%nat 0%nat) (fun k r => P 0%nat k r)).
Proof.
  set (K := ei_classes c) in *.
  assert (M : does (if Nat.ltb 1 (ei_reps c) then [OMix K (ei_reps c) (ep_mix p)] else [])
     (mkShape 1 K (ei_reps c)) (mkShape 1 K 1)
     (fun P f k _ => bsum (ei_reps c) (fun r => softmax (ei_reps c) (ep_mix p f k) r * P f k r))).
  { destruct (Nat.ltb_spec 1 (ei_reps c)) as [L|L].
    - split; [|split; reflexivity]. intros ds [A1 A2]. exists (mkShape 1 K (ei_reps c)). split; [|split; reflexivity].
      eapply g_cons with (ds' := mkShape 1 K (ei_reps c)); [|split; assumption| |reflexivity|split; reflexivity|apply g_nil].
      + unfold decl. cbn [channels features] in A1, A2. rewrite A2, Nat.eqb_refl, A1. destruct (Nat.ltb_spec K 1); [lia|reflexivity].
      + split; [exact Hcl|]. split; [exact HR|]. split; reflexivity.
    - assert (R1 : ei_reps c = 1%nat) by lia. rewrite R1. apply does_nil; [reflexivity|].
      intros P f k r (_ & _ & Ir). cbn [repetitions] in Ir. replace r with 0%nat by lia. cbn [bsum]. rewrite softmax_one. ring. }
  assert (T : does (if Nat.ltb 1 K then [OSum 1 1 (ep_root p)] else []) (mkShape 1 K 1) (mkShape 1 1 1)
     (fun P f _ r => bsum K (fun k => softmax K (fun j => ep_root p 0%nat j 0%nat 0%nat) k * P 0%nat k 0%nat))).
  { destruct (Nat.ltb_spec 1 K) as [L|L].
    - split; [|split; [reflexivity|]].
      + intros ds [A1 A2]. exists (mkShape 1 1 1). split; [|split; reflexivity].
        eapply g_cons with (ds' := mkShape 1 1 1); [|split; assumption| |exact I|split; reflexivity|apply g_nil].
        * unfold decl. cbn [features] in A1. now rewrite A1.
        * split; [exact Hcl|]. split; [cbn; lia|reflexivity].
      + intros P f o r (If & Io & Ir). cbn [features channels repetitions] in If, Io, Ir.
        replace f with 0%nat by lia. replace o with 0%nat by lia. replace r with 0%nat by lia. reflexivity.
    - assert (K1 : K = 1%nat) by lia. rewrite K1. apply does_nil; [reflexivity|].
      intros P f o r (If & Io & Ir). cbn [features channels repetitions] in If, Io, Ir.
      replace f with 0%nat by lia. replace o with 0%nat by lia. replace r with 0%nat by lia. cbn [bsum]. rewrite softmax_one. ring. }
  destruct (does_app _ _ _ _ _ _ _ M T) as (D1 & D2 & D3).
  { intros P Q f o r H _. apply bsum_ext. intros k Hk. f_equal. apply H. repeat split; cbn; lia. }
  split; [exact D1|]. split; [exact D2|]. intros P f o r IN. rewrite D3 by exact IN. reflexivity.
Qed.
End Top.

Section Body.
Variables (c : ein_cfg) (p : ein_par) (C0 nf : nat).
Hypothesis (Hcl : (1 <= ei_classes c)%nat) (Hsu : (1 <= ei_sums c)%nat) (HR : (1 <= ei_reps c)%nat)
  (HC0 : (0 < C0)%nat) (Hnf : (2 ^ ei_depth c <= nf)%nat).
Definition ein_body : list op := if ei_topdown c then ein_topdown_ops c p else ein_bottomup_ops c p.
Definition ein_width : nat := if ei_topdown c then 1%nat else (2 ^ (Nat.log2 nf - ei_depth c))%nat.
Definition ein_out : nat := if ei_topdown c then ei_classes c else ei_sums c.
Definition ein_base : shape := mkShape (2 ^ ein_fdepth c nf) C0 (ei_reps c).
Lemma depth_le : (ei_depth c <= Nat.log2 nf)%nat.
Proof. apply Nat.log2_le_pow2; [|exact Hnf]. pose proof (pow_pos (ei_depth c)). lia. Qed.
Lemma width_pos : (0 < ein_width)%nat.
Proof. unfold ein_width. destruct (ei_topdown c); [lia|apply pow_pos]. Qed.
Lemma width_eq : (ein_width * 2 ^ ei_depth c = 2 ^ ein_fdepth c nf)%nat.
Proof.
  unfold ein_width, ein_fdepth. destruct (ei_topdown c); [lia|]. rewrite <- Nat.pow_add_r. f_equal. pose proof depth_le. lia.
Qed.
Lemma ein_channels_pos l : (0 < ein_channels c C0 l)%nat.
Proof. unfold ein_channels. destruct (Nat.eqb l 0); [exact HC0|]. destruct (_ && _)%bool; lia. Qed.
Lemma out_pos : (0 < ein_out)%nat.
Proof. unfold ein_out. destruct (ei_topdown c); lia. Qed.
Lemma rev_seq_map n : rev (seq 1 n) = map (fun l => (n - l)%nat) (seq 0 n).
Proof.
  apply (nth_ext _ _ 0%nat 0%nat); [now rewrite rev_length, map_length, !seq_length|].
  intros i Hi. rewrite rev_length, seq_length in Hi. rewrite rev_nth by (rewrite seq_length; exact Hi). rewrite seq_length, seq_nth by lia.
  rewrite nth_map_seq by exact Hi. lia.
Qed.
Lemma body_layers : (0 < ei_depth c)%nat -> ein_body = elayers c p (ein_index c) (ein_channels c C0) (ei_depth c).
Proof.
  intros Hd. unfold ein_body, elayers, ein_topdown_ops, ein_bottomup_ops, ein_index, ein_channels.
  destruct (Nat.eqb_spec (ei_depth c) 0) as [|_]; [lia|]. destruct (ei_topdown c); cbn [andb].
  - rewrite rev_seq_map, map_map. apply map_ext_in. intros l Hl. apply in_seq in Hl. f_equal. change (Nat.eqb (S l) 0) with false. cbv iota.
    destruct (Nat.eqb_spec (ei_depth c - l) 1) as [E|E]; destruct (Nat.eqb_spec (S l) (ei_depth c)) as [E'|E']; lia || reflexivity.
  - apply map_ext_in. intros l Hl. reflexivity.
Qed.
Lemma body_does : does ein_body ein_base (mkShape ein_width ein_out (ei_reps c)) (ein_region c p C0).
Proof.
  destruct (Nat.eq_dec (ei_depth c) 0) as [Z|NZ].
  - assert (EW : ein_width = (2 ^ ein_fdepth c nf)%nat) by (rewrite <- width_eq, Z; cbn; lia).
    destruct (osum_does c Hcl Hsu HR ein_out (ep_zero p) (2 ^ ein_fdepth c nf) C0 HC0 out_pos) as (D1 & D2 & D3).
    assert (EB : ein_body = [OSum ein_out (ei_reps c) (ep_zero p)]).
    { unfold ein_body, ein_topdown_ops, ein_bottomup_ops, ein_out. rewrite Z. cbn [Nat.eqb]. now destruct (ei_topdown c). }
    rewrite EB, EW. split; [exact D1|]. split; [exact D2|]. intros P f o r IN. rewrite D3 by exact IN.
    unfold ein_region. rewrite Z. reflexivity.
  - rewrite body_layers by lia.
    assert (EB : ein_base = esh c ein_width (ei_depth c) (ein_channels c C0) 0).
    { unfold ein_base, esh. rewrite Nat.sub_0_r, width_eq. reflexivity. }
    assert (ET : mkShape ein_width ein_out (ei_reps c) = esh c ein_width (ei_depth c) (ein_channels c C0) (ei_depth c)).
    { unfold esh. rewrite Nat.sub_diag. cbn [Nat.pow]. rewrite Nat.mul_1_r. f_equal. unfold ein_out, ein_channels.
      destruct (Nat.eqb_spec (ei_depth c) 0); [lia|]. rewrite Nat.eqb_refl, andb_true_r. reflexivity. }
    rewrite EB, ET.
    destruct (elayers_good c p ein_width (ei_depth c) (ein_index c) (ein_channels c C0) width_pos HR ein_channels_pos (ei_depth c) (le_n _)) as [G E].
    split; [|split; [exact E|]].
    + intros ds [A1 A2].
      (* the declared repetitions of the layers below play no role *)
      assert (GG : forall ops d1 s1 d2, goods ops d1 s1 d2 -> ops <> [] -> (forall o, In o ops -> match o with OLin _ _ _ | OEin _ _ _ _ => True | _ => False end) ->
         forall d1', agree d1' d1 -> goods ops d1' s1 d2).
      { intros ops d1 s1 d2 GD. destruct GD as [|o rest d1 s1 d1n d2 Dd Ag Hf Hm Ag' GD]; [congruence|]. intros _ HO d1' [Q1 Q2].
        econstructor; [|split; destruct Ag; congruence|exact Hf|exact Hm|exact Ag'|exact GD].
        specialize (HO o (or_introl eq_refl)). destruct o; try contradiction; unfold decl in *; rewrite Q1; exact Dd. }
      exists (esh c ein_width (ei_depth c) (ein_channels c C0) (ei_depth c)). split; [|split; reflexivity].
      eapply GG; [exact G| | |split; assumption].
      * unfold elayers. destruct (ei_depth c); [lia|discriminate].
      * intros o Ho. unfold elayers in Ho. apply in_map_iff in Ho. destruct Ho as (i & <- & _). unfold ein_layer. destruct (ei_type c); exact I.
    + intros P f o r IN. rewrite (elayers_sem c p ein_width (ei_depth c) (ein_index c) (ein_channels c C0) width_pos HR ein_channels_pos P (ei_depth c) (le_n _) f o r IN).
      unfold ein_region. destruct (Nat.eqb_spec (ei_depth c) 0); [lia|reflexivity].
Qed.
Lemma final_does : does (finalize c p (negb (ei_topdown c)) (mkShape ein_width ein_out (ei_reps c)))
  (mkShape ein_width ein_out (ei_reps c)) (mkShape 1 1 1)
  (fun P _ _ _ => mixed (ei_classes c) (ei_reps c) (ep_mix p 0%nat) (fun j => ep_root p 0%nat j 0%nat 0%nat)
     (fun k r => if Nat.eqb ein_out (ei_classes c) then bprod ein_width (fun g => P g k r)
                 else bsum ein_out (fun i => softmax ein_out (fun j => ep_class p 0%nat j k r) i * bprod ein_width (fun g => P g i r)))).
Proof.
  unfold finalize. cbn [features channels].
  pose proof (collapse_does c Hcl Hsu HR (negb (ei_topdown c)) ein_width ein_out width_pos out_pos) as A.
  pose proof (class_does c p Hcl Hsu HR ein_out out_pos) as B. pose proof (mix_does c p Hcl Hsu HR) as M.
  destruct (does_app _ _ _ _ _ _ _ B M) as (D1 & D2 & D3).
  { intros P Q f o r H _. unfold mixed. apply bsum_ext. intros k Hk. f_equal. apply bsum_ext. intros q Hq. f_equal. apply H. repeat split; cbn; lia. }
  assert (D : does _ _ _ _) by (split; [exact D1|split; [exact D2|exact D3]]). clear D1 D2 D3.
  destruct (does_app _ _ _ _ _ _ _ (A (fun E => ltac:(unfold ein_width; apply negb_false_iff in E; rewrite E; reflexivity))) D) as (D1 & D2 & D3).
  { intros P Q f o r H _. unfold mixed. apply bsum_ext. intros k Hk. f_equal. apply bsum_ext. intros q Hq. f_equal.
    destruct (Nat.eqb ein_out (ei_classes c)) eqn:E.
    - apply Nat.eqb_eq in E. apply H. repeat split; cbn; lia.
    - apply bsum_ext. intros i Hi. f_equal. apply H. repeat split; cbn; lia. }
  split; [exact D1|]. split; [exact D2|]. intros P f o r IN. rewrite D3 by exact IN. reflexivity.
Qed.
End Body.
