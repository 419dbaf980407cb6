(** Function groups that rg2pic creates, for every region graph and all factories. *)
From Coq Require Import List Arith Bool Reals Lia.
From Verif Require Import Base ScopeModel RegionModel CircuitModel LayerModel PicModel.
Import ListNotations.
Local Open Scope nat_scope.

Definition heads_ok (F : factories) (k : nat) (gr : group) : Prop :=
  g_units gr <> [] /\ (exists sh, group_factory F = Some sh /\ g_c gr = sh (fst (fst (g_key gr))) (snd (fst (g_key gr))) (snd (g_key gr))) /\
  forall h v, nth_error (g_units gr) h = Some v -> exists zs ys c, v = PInt zs ys (Grp k h) c /\ query zs <> [] /\
    snd (fst (g_key gr)) = length (query zs) /\ snd (g_key gr) = length (query ys).
Definition groups_ok (F : factories) (n : nat) (G : list group) : Prop :=
  (forall k gr, nth_error G k = Some gr -> heads_ok F (n + k) gr) /\ NoDup (map g_key G).

Lemma key_eqb_spec a b : key_eqb a b = true <-> a = b.
Proof.
  destruct a as [[a1 a2] a3], b as [[b1 b2] b3]. unfold key_eqb. cbn [fst snd]. rewrite !andb_true_iff, !Nat.eqb_eq. split; [intros [[-> ->] ->]; reflexivity|intros E; injection E as -> -> ->; repeat split].
Qed.
Lemma add_to_keys k c mk : forall G n y, In y (map g_key (fst (add_to k c mk n G))) -> y = k \/ In y (map g_key G).
Proof.
  induction G as [|x G IH]; intros n y H; cbn [add_to] in H; [destruct H as [<-|[]]; now left|]. destruct (key_eqb (g_key x) k) eqn:E; cbn [fst map] in H.
  - right. exact H.
  - destruct H as [<-|H]; [right; now left|]. destruct (IH _ _ H); [now left|right; now right].
Qed.
Lemma add_to_ok F sh depth zs ys c : group_factory F = Some sh -> query zs <> [] -> forall G n, groups_ok F n G ->
  groups_ok F n (fst (add_to (depth, length (query zs), length (query ys)) (sh depth (length (query zs)) (length (query ys))) (fun w => PInt zs ys w c) n G)).
Proof.
  intros EF NZ. set (K := (depth, length (query zs), length (query ys))). set (mk := fun w => PInt zs ys w c).
  induction G as [|x G IH]; intros n [H ND]; cbn [add_to].
  - cbn [fst]. split; [|repeat constructor; intros []]. intros [|[|k]] gr E; try discriminate. cbn in E. injection E as <-. split; [discriminate|]. split; [exists sh; split; [exact EF|reflexivity]|].
    intros [|[|h]] v E; try discriminate. cbn in E. injection E as <-. rewrite Nat.add_0_r. exists zs, ys, c. repeat split. exact NZ.
  - destruct (key_eqb (g_key x) K) eqn:EK; cbn [fst].
    + apply key_eqb_spec in EK. split; [|exact ND]. intros [|k] gr E; [|exact (H (S k) gr E)]. cbn in E. injection E as <-. destruct (H 0 x eq_refl) as (H1 & H2 & H3). rewrite Nat.add_0_r in *. cbn [heads_ok g_units g_key g_c]. split; [|split; [exact H2|]]; cbn [g_units g_key].
      * destruct (g_units x); discriminate.
      * intros h v Ev. destruct (Nat.lt_ge_cases h (length (g_units x))) as [L|L]; [rewrite nth_error_app1 in Ev by exact L; now apply H3|]. rewrite nth_error_app2 in Ev by exact L.
        destruct (h - length (g_units x)) as [|i] eqn:EI; [|destruct i; discriminate]. cbn in Ev. injection Ev as <-. assert (h = length (g_units x)) as -> by lia. exists zs, ys, c. rewrite EK. repeat split. exact NZ.
    + cbn [map] in ND. inversion ND as [|? ? N ND']; subst. destruct (IH (S n)) as [I1 I2].
      { split; [|exact ND']. intros k gr E. specialize (H (S k) gr E). now rewrite Nat.add_succ_r in H. }
      split.
      * intros [|k] gr E; [exact (H 0 gr E)|]. cbn [nth_error] in E. rewrite Nat.add_succ_r. exact (I1 k gr E).
      * cbn [map]. constructor; [|exact I2]. intros Hin. apply add_to_keys in Hin. destruct Hin as [E|Hin]; [|contradiction]. rewrite E in EK. rewrite (proj2 (key_eqb_spec K K) eq_refl) in EK. discriminate.
Qed.

Section Inv.
Variable F : factories.
Let ok (st : state) : Prop := groups_ok F 0 (s_groups st).
Lemma new_integral_heads depth zs ys c st : ok st -> ok (fst (new_integral F depth zs ys c st)).
Proof.
  intros H. unfold new_integral. destruct (call_fn F _ _ st) as [st1 w] eqn:EC. assert (G1 : s_groups st1 = s_groups st) by (unfold call_fn in EC; destruct (function_factory F); injection EC as <- <-; reflexivity).
  unfold attach. destruct (group_factory F) as [sh|] eqn:EF; [|unfold ok; cbn [fst]; now rewrite G1]. destruct (Nat.eqb_spec (length (query zs)) 0) as [Z|Z]; [unfold ok; cbn [fst]; now rewrite G1|].
  unfold ok. cbn [fst s_groups]. apply add_to_ok; [exact EF|intros E; now rewrite E in Z|]. rewrite G1. exact H.
Qed.
Lemma alloc_heads rho st : ok st -> ok (fst (alloc rho st)).
Proof. unfold alloc. now destruct rho. Qed.
Lemma merge_heads strat depth rho u1 u2 st st' p : ok st -> merge_units F strat depth rho u1 u2 st = Ok (st', p) -> ok st'.
Proof.
  intros H E. unfold merge_units in E. set (ch := match strat with AUTO => _ | s => s end) in E.
  assert (CPCASE : (if negb (scope_eqb (latent u1) (latent u2)) then Err else if scope_empty (latent u1) then Err else
        let (st1, zs) := alloc rho st in let (st2, i1) := new_integral F depth zs (latent u1) u1 st1 in
        let (st3, i2) := new_integral F depth zs (latent u2) u2 st2 in bind (mk_prod i1 i2) (fun p => Ok (st3, p))) = Ok (st', p) -> ok st').
  { intros E'. destruct (negb _); [discriminate E'|]. destruct (scope_empty _); [discriminate E'|]. pose proof (alloc_heads rho st H) as HA. destruct (alloc rho st) as [st1 zs]. cbn [fst] in HA.
    pose proof (new_integral_heads depth zs (latent u1) u1 st1 HA) as H2. destruct (new_integral F depth zs (latent u1) u1 st1) as [st2 i1]. cbn [fst] in H2.
    pose proof (new_integral_heads depth zs (latent u2) u2 st2 H2) as H3. destruct (new_integral F depth zs (latent u2) u2 st2) as [st3 i2]. cbn [fst] in H3. destruct (mk_prod i1 i2); [|discriminate E']. cbn [bind] in E'. now injection E' as <- <-. }
  destruct ch; [now apply CPCASE| |now apply CPCASE]. destruct (mk_prod u1 u2) as [prod|]; [|discriminate E]. cbn [bind] in E. pose proof (alloc_heads rho st H) as HA. destruct (alloc rho st) as [st1 zs]. cbn [fst] in HA.
  pose proof (new_integral_heads depth zs (latent prod) prod st1 HA) as H2. injection E as E. rewrite E in H2. exact H2.
Qed.
Lemma fold_heads strat depth rho us : forall cur st st' p, ok st -> fold_units F strat depth rho cur us st = Ok (st', p) -> ok st'.
Proof.
  induction us as [|u us IH]; intros cur st st' p H E; cbn [fold_units] in E; [now injection E as <- <-|].
  destruct (merge_units F strat depth (match us with [] => rho | _ => false end) cur u st) as [[st1 p1]|] eqn:E1; [|discriminate E]. cbn [bind fst snd] in E. eapply IH; [|exact E]. eapply merge_heads; eassumption.
Qed.
Lemma partition_heads strat depth rho p st st' u : ok st -> partition_unit F strat depth rho p st = Ok (st', u) -> ok st'.
Proof.
  intros H E. unfold partition_unit in E. destruct (Nat.ltb _ _); [discriminate E|]. destruct (mapR _ p) as [us|]; [|discriminate E]. cbn [bind] in E. destruct us as [|u0 us]; [discriminate E|]. eapply fold_heads; eassumption.
Qed.
Lemma partitions_heads strat depth rho ps : forall st st' us, ok st -> partitions F strat depth rho ps st = Ok (st', us) -> ok st'.
Proof.
  induction ps as [|p ps IH]; intros st st' us H E; cbn [partitions] in E; [now injection E as <- <-|].
  destruct (partition_unit F strat depth rho p st) as [[st1 u]|] eqn:E1; [|discriminate E]. cbn [bind fst snd] in E. destruct (partitions F strat depth rho ps st1) as [[st2 us2]|] eqn:E2; [|discriminate E]. cbn [bind fst snd] in E. injection E as <- <-.
  eapply IH; [|exact E2]. eapply partition_heads; eassumption.
Qed.
Lemma step_heads strat root X st st' : ok st -> region_step F strat root X st = Ok st' -> ok st'.
Proof.
  intros H E. unfold region_step in E. destruct (r_children X) as [|p ps].
  - pose proof (alloc_heads (region_eqb X root) st H) as HA. destruct (alloc (region_eqb X root) st) as [st1 zs]. cbn [fst] in HA. destruct (negb _); [discriminate E|]. injection E as <-. exact HA.
  - destruct (partitions F strat (rdepth X) (region_eqb X root) (p :: ps) st) as [[st1 us]|] eqn:E1; [|discriminate E]. cbn [bind fst snd] in E. pose proof (partitions_heads _ _ _ _ _ _ _ H E1) as H1.
    destruct us as [|u [|u2 us]]; [discriminate E|injection E as <-; exact H1|]. destruct (existsb _ _); [discriminate E|]. destruct (mk_sum _ _ _); [|discriminate E]. cbn [bind] in E. injection E as <-. exact H1.
Qed.
Lemma loop_heads strat root l : forall st st', ok st -> region_loop F strat root l st = Ok st' -> ok st'.
Proof.
  induction l as [|X l IH]; intros st st' H E; cbn [region_loop] in E; [now injection E as <-|]. destruct (region_step F strat root X st) as [st1|] eqn:E1; [|discriminate E]. cbn [bind] in E. eapply IH; [|exact E]. eapply step_heads; eassumption.
Qed.
Lemma rg2pic_heads strat root u G : rg2pic F strat root = Ok (u, G) -> groups_ok F 0 G.
Proof.
  intros E. unfold rg2pic in E. destruct (region_loop F strat root (post_order root) _) as [st|] eqn:E1; [|discriminate E]. cbn [bind] in E. destruct (lookup root (s_units st)); [|discriminate E]. cbn [bind] in E. injection E as <- <-.
  eapply loop_heads; [|exact E1]. split; [intros [|k] gr H; discriminate|constructor].
Qed.
End Inv.
