(** rg2pic: which region graphs it accepts, and what it returns. *)
From Coq Require Import List Arith Bool Reals Lia Lra.
From Verif Require Import Base ScopeModel ScopeProofs RegionModel RegionSpec RegionProofs CircuitModel LayerModel PicModel PicSpec PicGrid PicMat PicVisit PicRg.
Import ListNotations.
Local Open Scope nat_scope.

Lemma lsum_repeat a n : lsumR (repeat a n) = (INR n * a)%R.
Proof. induction n as [|n IH]; cbn [repeat lsumR]; [cbn; lra|]. rewrite IH, S_INR. lra. Qed.
Lemma mk_sum_ok cs ws zs : cs <> [] -> length ws = length cs -> (forall w, In w ws -> 0 < w)%R -> (Rabs (lsumR ws - 1) <= / 10 ^ 8 + / 10 ^ 5)%R ->
  all_equal (map pic_scope cs) = true -> mk_sum cs ws zs = Ok (PSum ws zs cs).
Proof.
  intros N L P T A. unfold mk_sum. destruct cs as [|c cs]; [congruence|]. rewrite L, Nat.eqb_refl. cbn [negb].
  assert (forallb (fun w => rlt 0 w) ws = true) as ->. { apply forallb_forall. intros w Hw. unfold rlt. destruct (Rlt_dec 0 w); [reflexivity|]. exfalso. now apply n, P. }
  cbn [negb]. assert (rle (Rabs (lsumR ws - 1)) (/ 10 ^ 8 + / 10 ^ 5) = true) as ->. { unfold rle. destruct (Rle_dec _ _); [reflexivity|contradiction]. }
  cbn [negb]. rewrite A. reflexivity.
Qed.

Section Top.
Variable q : rule.
Variable gf : nat -> nat -> list R -> list R -> R.
Variable g : input -> row -> list R -> R.
Variable F : factories.
Hypothesis HF : factories_ok q gf g F.
Notation uok := (uok q gf g F).
Notation Inv := (Inv q gf g F).

Definition top_ok strat (root : region) : Prop := r_children root = [] \/ strat <> CP.

Lemma weights_ok n : 2 <= n -> let ws := match sum_weights_factory F with None => repeat (1 / INR n)%R n | Some h => h n end in
  length ws = n /\ (forall w, In w ws -> 0 < w)%R /\ (Rabs (lsumR ws - 1) <= / 10 ^ 8 + / 10 ^ 5)%R.
Proof.
  intros Hn ws. destruct HF as (_ & _ & _ & HW). unfold ws. destruct (sum_weights_factory F) as [h|] eqn:E; [exact (HW h n eq_refl Hn)|].
  assert (0 < INR n)%R by (apply lt_0_INR; lia). split; [apply repeat_length|]. split.
  - intros w Hw. apply repeat_spec in Hw. subst. apply Rdiv_lt_0_compat; lra.
  - rewrite lsum_repeat. replace (INR n * (1 / INR n) - 1)%R with 0%R by (field; lra). rewrite Rabs_R0.
    assert (0 < / 10 ^ 8)%R by (apply Rinv_0_lt_compat, pow_lt; lra). assert (0 < / 10 ^ 5)%R by (apply Rinv_0_lt_compat, pow_lt; lra). lra.
Qed.

Lemma step_root strat root st : Inv st -> region_ok root -> (forall c, is_child c root -> present c st) -> (forall c, is_child c root -> query (r_scope c) <> []) ->
  (top_ok strat root -> exists st' u, region_step F strat root root st = Ok st' /\ uok u None /\ covers root u /\ s_units st' = (root, u) :: s_units st /\ (group_factory F = None -> s_groups st' = s_groups st)) /\
  (~ top_ok strat root -> region_step F strat root root st = Err).
Proof.
  intros I (VX & EX & QX & PX) HP HQ. unfold region_step. assert (region_eqb root root = true) as -> by (apply region_eqb_spec, region_equal_refl). destruct (r_children root) as [|p ps] eqn:EC.
  - split; [|intros H; exfalso; apply H; now left]. intros _. cbn [alloc]. destruct (proj1 HF (r_scope root) empty_scope) as (L1 & L2 & L3).
    rewrite L2. assert (scope_eqb empty_scope empty_scope = true) as -> by (apply scope_eqb_spec; split; intros; tauto). cbn [negb].
    eexists _, _. split; [reflexivity|]. split; [|split; [|split; [reflexivity|reflexivity]]].
    + split; [exact L3|]. cbn [pic_scope order latent plain]. rewrite L1, L2. repeat split; try assumption; try apply VX.
    + intros v. cbn [pic_scope]. now rewrite L1.
  - assert (HP' : forall p' c, In p' (p :: ps) -> In c p' -> present c st) by (intros p' c H1 H2; apply HP; exists p'; rewrite EC; now split).
    assert (HQ' : forall p' c, In p' (p :: ps) -> In c p' -> query (r_scope c) <> []) by (intros p' c H1 H2; apply HQ; exists p'; rewrite EC; now split).
    assert (DS : {strat = CP} + {strat <> CP}) by (destruct strat; [right; discriminate|right; discriminate|now left]).
    destruct DS as [->|NC].
    + split; [intros [H|H]; [rewrite EC in H; discriminate|congruence]|]. intros _. cbn [partitions].
      rewrite (partition_cp q gf g F (rdepth root) true root p st I (fun c => HP' p c (or_introl eq_refl)) (fun c => HQ' p c (or_introl eq_refl)) (PX p (or_introl eq_refl))). reflexivity.
    + split; [|intros H; exfalso; apply H; now right]. intros _.
      destruct (partitions_ok q gf g F HF strat (rdepth root) true root (p :: ps) NC st I HP' HQ' PX) as (st1 & us & E & LU & U & _ & N1 & N2 & N3). rewrite E. cbn [bind fst snd].
      assert (U' : Forall (fun u => uok u None /\ covers root u) us).
      { eapply Forall_impl; [|exact U]. intros u ([z|] & A & B & C); [destruct B; discriminate|now split]. }
      clear U. destruct us as [|u us]; [discriminate|]. destruct us as [|u2 us].
      * apply Forall_inv in U'. destruct U' as [UU CV]. eexists _, u. split; [reflexivity|]. split; [exact UU|]. split; [exact CV|]. split; [cbn; now rewrite N2|exact N3].
      * set (L := u2 :: us) in *. assert (2 <= length (u :: L)) as L2 by (unfold L; cbn; lia).
        pose proof U' as UA. rewrite Forall_forall in UA. assert (LE : forall v, In v (u :: L) -> latent v = mkScope [] []) by (intros v Hv; apply UA in Hv; apply Hv).
        assert (existsb (fun m => negb (scope_eqb (latent m) (latent u))) L = false) as EB.
        { destruct (existsb _ L) eqn:EX2; [|reflexivity]. apply existsb_exists in EX2. destruct EX2 as (v & Hv & EV). rewrite (LE v (or_intror Hv)), (LE u (or_introl eq_refl)) in EV. discriminate. }
        rewrite EB. destruct (weights_ok (length (u :: L)) L2) as (W1 & W2 & W3). set (ws := match sum_weights_factory F with None => _ | Some h => _ end) in *.
        assert (AE : all_equal (map pic_scope (u :: L)) = true).
        { apply all_equal_spec. intros s t Hs Ht. apply in_map_iff in Hs, Ht. destruct Hs as (a & <- & Ha), Ht as (b & <- & Hb). destruct (UA a Ha) as [(_ & _ & Ea & _) Ca]. destruct (UA b Hb) as [(_ & _ & Eb & _) Cb].
          apply scope_eqb_spec. split; [intros v; rewrite (Ca v), (Cb v); tauto|intros v; rewrite Ea, Eb; tauto]. }
        assert (MS := mk_sum_ok (u :: L) ws (latent u) ltac:(discriminate) W1 W2 W3 AE). rewrite MS. cbn [bind].
        eexists _, (PSum ws (latent u) (u :: L)). split; [reflexivity|]. destruct (UA u (or_introl eq_refl)) as [(S1 & V1 & E1 & O1 & L1 & P1) C1].
        split; [|split; [exact C1|split; [cbn; now rewrite N2|exact N3]]].
        split; [|split; [exact V1|split; [exact E1|split; [exact O1|split; [exact L1|]]]]].
        -- split; [exact MS|]. change (all_sound gf g q (order (PSum ws (latent u) (u :: L))) (u :: L)). apply all_sound_spec. apply Forall_forall. intros v Hv. destruct (UA v Hv) as [(Sv & _ & _ & Ov & _) _]. split; [exact Sv|]. rewrite Ov. symmetry. exact O1.
        -- intros EG. change (all_plain (u :: L)). apply all_plain_spec. apply Forall_forall. intros v Hv. destruct (UA v Hv) as [(_ & _ & _ & _ & _ & Pv) _]. now apply Pv.
Qed.

(** ** The loop over the regions *)
Lemma accepted_dec strat X : accepted strat X \/ ~ accepted strat X.
Proof.
  unfold accepted. destruct (r_children X) as [|p [|p2 ps]]; [left; now left| |].
  - destruct strat; [left; right; split; [discriminate|reflexivity]|left; right; split; [discriminate|reflexivity]|right; intros [H|[H _]]; [discriminate|congruence]].
  - right. intros [H|[_ H]]; discriminate.
Qed.
Lemma rg_region root X : rg_ok root -> reach root X -> region_ok X /\ forall c, is_child c X -> query (r_scope c) <> [].
Proof.
  intros RG RX. destruct (RG X RX) as (A & B & C & D). split; [split; [exact A|split; [exact B|split; [exact C|exact D]]]|].
  intros c Hc. destruct (RG c (reach_child _ _ _ RX Hc)) as (_ & _ & E & _). exact E.
Qed.
Lemma loop_ok strat root l : rg_ok root -> forall done st rest, post_order root = done ++ l ++ root :: rest -> Inv st -> map fst (s_units st) = rev done ->
  (Forall (accepted strat) l -> exists st', region_loop F strat root l st = Ok st' /\ Inv st' /\ map fst (s_units st') = rev (done ++ l) /\ (group_factory F = None -> s_groups st' = s_groups st)) /\
  (~ Forall (accepted strat) l -> region_loop F strat root l st = Err).
Proof.
  intros RG. destruct (post_order_post root) as (A & EA & RA & _ & DA & OA). subst A.
  induction l as [|X l IH]; intros done st rest EP I EU.
  - split; [|intros H; exfalso; apply H; constructor]. intros _. exists st. cbn [region_loop]. rewrite app_nil_r. split; [reflexivity|]. split; [exact I|]. split; [exact EU|auto].
  - assert (HX : In X (post_order root)) by (rewrite EP; apply in_app_iff; right; now left).
    assert (SX : same X root = false).
    { pose proof DA as D. unfold distinct in D. rewrite EP in D. clear -D. induction done as [|d done IHd]; [|apply IHd; now inversion D]. cbn [app] in D. inversion D as [|? ? H _]; subst. rewrite Forall_forall in H. apply H. apply in_app_iff. right. now left. }
    assert (NR : region_eqb X root = false).
    { destruct (region_eqb X root) eqn:E; [|reflexivity]. exfalso. apply region_eqb_spec, region_equal_size in E. pose proof (RA X HX) as RX. inversion RX as [|r c Hr Hc]; subst; [now rewrite same_refl in SX|]. apply child_size in Hc. apply reach_size in Hr. lia. }
    destruct (rg_region root X RG (RA X HX)) as [RO RQ].
    assert (HP : forall c, is_child c X -> present c st).
    { intros c Hc. destruct (OA done X (l ++ root :: rest) EP c Hc) as (d & Hd & Sd). apply in_rev in Hd. rewrite <- EU in Hd. apply in_map_iff in Hd. destruct Hd as (e & <- & He). now exists e. }
    destruct (step_inner q gf g F HF strat root X st NR I RO HP RQ) as [SA SB]. cbn [region_loop].
    destruct (accepted_dec strat X) as [AX|AX].
    + destruct (SA AX) as (st1 & u & E & I1 & U1 & G1). rewrite E. cbn [bind].
      destruct (IH (done ++ [X]) st1 rest) as [TA TB]; [rewrite <- app_assoc; exact EP|exact I1|rewrite U1; cbn [map fst]; now rewrite rev_app_distr, EU|].
      split.
      * intros H. apply Forall_inv_tail in H. destruct (TA H) as (st' & E' & I' & U' & G'). exists st'. split; [exact E'|]. split; [exact I'|]. split; [now rewrite <- app_assoc in U'|]. intros EG. rewrite (G' EG). now apply G1.
      * intros H. apply TB. intros H'. apply H. now constructor.
    + split; [intros H; apply Forall_inv in H; contradiction|]. intros _. now rewrite (SB AX).
Qed.
Lemma loop_app strat root a b st : region_loop F strat root (a ++ b) st = bind (region_loop F strat root a st) (region_loop F strat root b).
Proof. revert st. induction a as [|x a IH]; intros st; [reflexivity|]. cbn [app region_loop]. destruct (region_step _ _ _ _ _); [apply IH|reflexivity]. Qed.

Lemma below_accepted strat root l : post_order root = l ++ [root] -> strat <> CP -> (Forall (accepted strat) l <-> single_below root).
Proof.
  intros EP NC. destruct (post_order_post root) as (A & EA & RA & _ & DA & OA). subst A. split.
  - intros H r c Hr Hc. destruct (post_order_spec root) as (_ & CO & _). destruct (CO c (reach_child _ _ _ Hr Hc)) as (d & Hd & Ed).
    assert (LC : length (r_children c) = length (r_children d)). { inversion Ed as [s u ps qs _ _ C]; subst. cbn [r_children]. clear -C. induction C; cbn; congruence. }
    rewrite EP in Hd. apply in_app_iff in Hd. destruct Hd as [Hd|[<-|[]]].
    + rewrite Forall_forall in H. destruct (H d Hd) as [E|[_ E]]; rewrite LC; [rewrite E; cbn; lia|lia].
    + apply region_equal_size in Ed. apply child_size in Hc. apply reach_size in Hr. lia.
  - intros H. apply Forall_forall. intros X HX. assert (HX' : In X (post_order root)) by (rewrite EP; apply in_app_iff; now left).
    pose proof (RA X HX') as RX. inversion RX as [|r c Hr Hc]; subst.
    + exfalso. unfold distinct in DA. rewrite EP in DA. clear -DA HX. induction l as [|d l IHl]; [destruct HX|]. cbn [app] in DA. inversion DA as [|? ? H D']; subst. destruct HX as [->|HX]; [|now apply IHl]. rewrite Forall_forall in H. specialize (H X ltac:(apply in_app_iff; right; now left)). now rewrite same_refl in H.
    + specialize (H r X Hr Hc). destruct (r_children X) as [|p [|p2 ps]] eqn:EC; [left; exact EC|right; split; [exact NC|now rewrite EC]|cbn in H; lia].
Qed.
Lemma below_cp root l : post_order root = l ++ [root] -> r_children root = [] -> l = [].
Proof. intros EP EC. destruct root as [s ps]. cbn [r_children] in EC. subst ps. unfold post_order in EP. cbn in EP. destruct l as [|a l]; [reflexivity|]. cbn in EP. injection EP as _ E. destruct l; discriminate. Qed.

Lemma rg2pic_spec strat root : rg_ok root ->
  (r_children root = [] \/ (strat <> CP /\ single_below root) -> exists u G, rg2pic F strat root = Ok (u, G) /\ uok u None /\ covers root u /\ (group_factory F = None -> G = [])) /\
  (~ (r_children root = [] \/ (strat <> CP /\ single_below root)) -> rg2pic F strat root = Err).
Proof.
  intros RG. destruct (post_order_last root) as [l EP]. destruct (post_order_post root) as (A & EA & RA & _ & DA & OA). subst A.
  set (st0 := mkSt (S (list_max (query (r_scope root)))) 0 [] []). assert (I0 : Inv st0) by (split; constructor).
  destruct (loop_ok strat root l RG [] st0 [] EP I0 eq_refl) as [LA LB]. unfold rg2pic. fold st0. rewrite EP, loop_app.
  destruct (rg_region root root RG (reach_root _)) as [RO RQ].
  assert (HS : forall st', Inv st' -> map fst (s_units st') = rev l -> (forall c, is_child c root -> present c st')).
  { intros st' _ EU c Hc. destruct (OA l root [] EP c Hc) as (d & Hd & Sd). apply in_rev in Hd. rewrite <- EU in Hd. apply in_map_iff in Hd. destruct Hd as (e & <- & He). now exists e. }
  split.
  - intros H. assert (FA : Forall (accepted strat) l /\ top_ok strat root).
    { destruct H as [H|[H1 H2]]; [rewrite (below_cp root l EP H); split; [constructor|now left]|split; [now apply (below_accepted strat root l EP H1)|now right]]. }
    destruct FA as [FA TO]. destruct (LA FA) as (st1 & E1 & I1 & U1 & G1). rewrite E1. cbn [bind region_loop app] in *.
    destruct (proj1 (step_root strat root st1 I1 RO (HS st1 I1 U1) RQ) TO) as (st' & u & E & UU & CV & EU & EG). rewrite E. cbn [bind]. rewrite EU. cbn [lookup]. rewrite same_refl. cbn [bind].
    exists u, (s_groups st'). split; [reflexivity|]. split; [exact UU|]. split; [exact CV|]. intros EN. rewrite (EG EN), (G1 EN). reflexivity.
  - intros H. assert (DEC : Forall (accepted strat) l \/ ~ Forall (accepted strat) l). { clear. induction l as [|X l IH]; [left; constructor|]. destruct (accepted_dec strat X) as [AX|AX]; [destruct IH as [IH|IH]; [left; now constructor|right; intros H; apply IH; now inversion H]|right; intros H; apply AX; now inversion H]. }
    destruct DEC as [FA|FA]; [|now rewrite (LB FA)].
    destruct (LA FA) as (st1 & E1 & I1 & U1 & G1). rewrite E1. cbn [bind region_loop app] in *.
    rewrite (proj2 (step_root strat root st1 I1 RO (HS st1 I1 U1) RQ)); [reflexivity|]. intros [T|T]; [apply H; now left|]. apply H. right. split; [exact T|]. now apply (below_accepted strat root l EP T).
Qed.
End Top.
