(** Proofs about ImageModel *)
From Coq Require Import List Arith Bool ZArith Lia Lra Permutation FunctionalExtensionality.
From Verif Require LayerProofs.
From Verif Require Import Base ScopeModel ScopeProofs CircuitModel CircuitSpec CircuitBasics CircuitEval Integral CircuitMarg CircuitProps MargModel MargProofs SampleModel SampleSpec SampleExp SampleProofs SampleTop SampleApi SignedModel ConvProofs ImageModel.
Import ListNotations.

(** the variable of pixel (c, h, w) of an image with [H] rows and [W] columns *)
Definition pix (H W c h w : nat) : nat := (c * (H * W) + h * W + w)%nat.

Lemma pix_dec C H W u : (u < C * H * W)%nat ->
  (u / (H * W) < C)%nat /\ ((u / W) mod H < H)%nat /\ (u mod W < W)%nat /\ u = pix H W (u / (H * W)) ((u / W) mod H) (u mod W).
Proof.
  intros Hu. assert (W <> 0)%nat by (intros ->; lia). assert (H <> 0)%nat by (intros ->; lia).
  split; [apply Nat.div_lt_upper_bound; lia|]. split; [now apply Nat.mod_upper_bound|]. split; [now apply Nat.mod_upper_bound|].
  unfold pix. rewrite (Nat.mul_comm H W), <- Nat.div_div by assumption.
  pose proof (Nat.div_mod u W ltac:(assumption)) as E1. pose proof (Nat.div_mod (u / W) H ltac:(assumption)) as E2. nia.
Qed.

Lemma pix_enc C H W c h w : (c < C)%nat -> (h < H)%nat -> (w < W)%nat ->
  (pix H W c h w < C * H * W)%nat /\ (pix H W c h w / (H * W) = c)%nat /\ ((pix H W c h w / W) mod H = h)%nat /\ (pix H W c h w mod W = w)%nat.
Proof.
  intros Hc Hh Hw. assert (pix H W c h w = ((c * H + h) * W + w)%nat) as E by (unfold pix; ring).
  destruct (div_mod_enc W (c * H + h) w Hw) as [D1 M1]. destruct (div_mod_enc H c h Hh) as [D2 M2].
  rewrite (Nat.mul_comm H W), <- Nat.div_div by lia. rewrite E, D1, M1, D2, M2. split; [|auto].
  assert (c * H + h < C * H)%nat by nia. nia.
Qed.

Lemma pix_inj C H W c h w c' h' w' : (c < C)%nat -> (h < H)%nat -> (w < W)%nat -> (c' < C)%nat -> (h' < H)%nat -> (w' < W)%nat ->
  pix H W c h w = pix H W c' h' w' -> c = c' /\ h = h' /\ w = w'.
Proof.
  intros A1 A2 A3 B1 B2 B3 E. destruct (pix_enc C H W c h w A1 A2 A3) as (_ & P1 & P2 & P3).
  destruct (pix_enc C H W c' h' w' B1 B2 B3) as (_ & Q1 & Q2 & Q3). rewrite E in *. split; [congruence|]. split; congruence.
Qed.

Lemma flat_pix C H W t c h w : (c < C)%nat -> (h < H)%nat -> (w < W)%nat -> flat (mkData C H W t) (pix H W c h w) = t c h w.
Proof.
  intros Hc Hh Hw. destruct (pix_enc C H W c h w Hc Hh Hw) as (P0 & P1 & P2 & P3). unfold flat. cbn [d_c d_h d_w d_px].
  apply Nat.ltb_lt in P0. rewrite P0, P1, P2, P3. reflexivity.
Qed.

(** ** Scopes of accepted wrappers *)
Lemma mk_image_ok m (C H W : nat) g : mk_image m (Z.of_nat C) (Z.of_nat H) (Z.of_nat W) = Ok g ->
  g = mkImw m (Z.of_nat C) (Z.of_nat H) (Z.of_nat W) /\ length (query (scope_of m)) = (C * H * W)%nat.
Proof.
  unfold mk_image. destruct (Z.eqb_spec (Z.of_nat (length (query (scope_of m)))) (Z.of_nat H * Z.of_nat W * Z.of_nat C)) as [E|E]; [|discriminate].
  intros X. injection X as <-. split; [reflexivity|]. rewrite <- !Nat2Z.inj_mul in E. apply Nat2Z.inj in E. rewrite E. ring.
Qed.

Lemma scope_full m n : wf m -> length (query (scope_of m)) = n -> (forall v, vars m v -> (v < n)%nat) -> forall v, vars m v <-> (v < n)%nat.
Proof.
  intros Wf L B v. split; [apply B|]. intros Hv. unfold vars in *.
  assert (incl (seq 0 n) (query (scope_of m))) as I.
  { apply NoDup_length_incl.
    - apply (wf_scope m (wf_wf1 m Wf)).
    - rewrite seq_length. lia.
    - intros u Hu. apply in_seq. specialize (B u Hu). lia. }
  apply I. apply in_seq. lia.
Qed.

Lemma to_image_ok {A} m C H W (x : nat -> A) :
  to_image (mkImw m (Z.of_nat C) (Z.of_nat H) (Z.of_nat W)) (C * H * W) x = Ok (fun c h w => x (pix H W c h w)).
Proof.
  unfold to_image. cbn [w_c w_h w_w]. rewrite !(proj2 (Z.leb_le _ _)) by lia. rewrite !Nat2Z.inj_mul, Z.eqb_refl. cbn [andb]. now rewrite !Nat2Z.id.
Qed.

Lemma same_shape_ok m C H W t : same_shape (mkImw m (Z.of_nat C) (Z.of_nat H) (Z.of_nat W)) (mkData C H W t) = true.
Proof. unfold same_shape. cbn. now rewrite !Z.eqb_refl. Qed.

Lemma same_shape_dims g d : same_shape g d = true -> w_c g = Z.of_nat (d_c d) /\ w_h g = Z.of_nat (d_h d) /\ w_w g = Z.of_nat (d_w d).
Proof.
  unfold same_shape. intros E. apply andb_true_iff in E. destruct E as [E E3]. apply andb_true_iff in E. destruct E as [E1 E2].
  apply Z.eqb_eq in E1, E2, E3. auto.
Qed.

Lemma forallb_lt q n : forallb (fun v => Nat.ltb v n) q = true <-> forall v, In v q -> (v < n)%nat.
Proof.
  rewrite forallb_forall. split; intros H v Hv; specialize (H v Hv); now apply Nat.ltb_lt.
Qed.

(** ** Likelihood *)
Lemma image_ll_ok m C H W t s : (forall v, vars m v -> (v < C * H * W)%nat) -> ll_shape m = Ok s ->
  image_ll (mkImw m (Z.of_nat C) (Z.of_nat H) (Z.of_nat W)) (mkData C H W t) = Ok (s, loglik m (flat (mkData C H W t))).
Proof.
  intros B L. unfold image_ll. rewrite same_shape_ok. cbn [negb]. unfold flatten. cbn [d_c d_h d_w w_c w_mod]. rewrite Z.eqb_refl. cbn [bind fst snd].
  rewrite L. cbn [bind]. now rewrite (proj2 (forallb_lt _ _) B).
Qed.

Lemma image_ll_inv g d s L : image_ll g d = Ok (s, L) ->
  w_c g = Z.of_nat (d_c d) /\ w_h g = Z.of_nat (d_h d) /\ w_w g = Z.of_nat (d_w d) /\ ll_shape (w_mod g) = Ok s /\
  (forall v, vars (w_mod g) v -> (v < d_c d * d_h d * d_w d)%nat).
Proof.
  unfold image_ll. destruct (same_shape g d) eqn:E; [|discriminate]. apply same_shape_dims in E. cbn [negb]. unfold flatten.
  destruct (Z.eqb _ _); [|discriminate]. cbn [bind fst snd]. destruct (ll_shape (w_mod g)) as [s'|]; [|discriminate]. cbn [bind].
  destruct (forallb _ _) eqn:F; [|discriminate]. intros X. injection X as <- _. rewrite forallb_lt in F. tauto.
Qed.

(** ** Sampling *)
Lemma image_sample_unfold mpe ev m C H W t :
  image_sample_ev mpe (mkImw m (Z.of_nat C) (Z.of_nat H) (Z.of_nat W)) ev (mkData C H W t) =
  pbind (sample_m mpe (C * H * W) ev m init_ctx (flat (mkData C H W t))) (fun y => Ret (mkData C H W (fun c h w => y (pix H W c h w)))).
Proof.
  unfold image_sample_ev, flatten. cbn [d_c d_h d_w w_c w_mod w_h w_w]. rewrite Z.eqb_refl. f_equal. apply functional_extensionality. intros y.
  rewrite to_image_ok. now rewrite !Nat2Z.id.
Qed.

Lemma lprod_seq_pix C H W g : lprod (seq 0 (C * H * W)) g = bprod C (fun c => bprod H (fun h => bprod W (fun w => g (pix H W c h w)))).
Proof.
  rewrite <- (lprod_perm (flat_map (fun c => flat_map (fun h => map (fun w => pix H W c h w) (seq 0 W)) (seq 0 H)) (seq 0 C))).
  - rewrite lprod_flat_map, <- bprod_lprod. apply bprod_ext. intros c Hc. rewrite lprod_flat_map, <- bprod_lprod. apply bprod_ext. intros h Hh.
    rewrite lprod_map, <- bprod_lprod. reflexivity.
  - apply NoDup_Permutation; [|apply seq_NoDup|].
    + apply flat_map_NoDup; [apply seq_NoDup| |].
      * intros c Hc. apply in_seq in Hc. apply flat_map_NoDup; [apply seq_NoDup| |].
        -- intros h Hh. apply FinFun.Injective_map_NoDup; [intros a b; unfold pix; lia|apply seq_NoDup].
        -- intros h h' u Hh Hh' I1 I2. apply in_seq in Hh, Hh'. apply in_map_iff in I1, I2. destruct I1 as (w & <- & Iw). destruct I2 as (w' & E & Iw').
           apply in_seq in Iw, Iw'. apply (pix_inj C) in E; try lia. 
      * intros c c' u Hc Hc' I1 I2. apply in_seq in Hc, Hc'. apply in_flat_map in I1, I2. destruct I1 as (h & Ih & I1). destruct I2 as (h' & Ih' & I2).
        apply in_seq in Ih, Ih'. apply in_map_iff in I1, I2. destruct I1 as (w & <- & Iw). destruct I2 as (w' & E & Iw').
        apply in_seq in Iw, Iw'. apply (pix_inj C) in E; try lia.
    + intros u. rewrite in_flat_map, in_seq. split.
      * intros (c & Ic & I1). apply in_flat_map in I1. destruct I1 as (h & Ih & I1). apply in_map_iff in I1. destruct I1 as (w & <- & Iw). apply in_seq in Ic, Ih, Iw.
        pose proof (proj1 (pix_enc C H W c h w ltac:(lia) ltac:(lia) ltac:(lia))). lia.
      * intros Hu. destruct (pix_dec C H W u ltac:(lia)) as (A1 & A2 & A3 & A4). exists (u / (H * W))%nat. split; [apply in_seq; lia|].
        apply in_flat_map. exists ((u / W) mod H)%nat. split; [apply in_seq; lia|]. apply in_map_iff. exists (u mod W)%nat. split; [auto|apply in_seq; lia].
Qed.

(** ** Marginalisation *)
Lemma pyidx_ok n i k : (k < n)%nat -> (i = Z.of_nat k \/ i = Z.of_nat k - Z.of_nat n)%Z -> pyidx (Z.of_nat n) i = Ok k.
Proof.
  intros Hk [->| ->]; unfold pyidx.
  - rewrite (proj2 (Z.leb_le _ _)), (proj2 (Z.ltb_lt _ _)) by lia. cbn [andb]. now rewrite Nat2Z.id.
  - destruct (Z.leb_spec 0 (Z.of_nat k - Z.of_nat n)); [lia|]. cbn [andb].
    rewrite (proj2 (Z.leb_le _ _)), (proj2 (Z.ltb_lt _ _)) by lia. cbn [andb]. f_equal. lia.
Qed.

Definition selects (n : nat) (zs : list Z) (ks : list nat) : Prop :=
  Forall2 (fun i k => (k < n)%nat /\ (i = Z.of_nat k \/ i = Z.of_nat k - Z.of_nat n)%Z) zs ks.

Lemma selects_mapR n zs ks : selects n zs ks -> mapR (pyidx (Z.of_nat n)) zs = Ok ks.
Proof.
  induction 1 as [|i k zs ks [Hk Hi] _ IH]; cbn [mapR]; [reflexivity|]. rewrite (pyidx_ok n i k Hk Hi). cbn [bind].
  change ((fix go (l : list Z) : result (list nat) := match l with [] => Ok [] | a :: r => bind (pyidx (Z.of_nat n) a) (fun b => bind (go r) (fun bs => Ok (b :: bs))) end) zs)
    with (mapR (pyidx (Z.of_nat n)) zs). rewrite IH. reflexivity.
Qed.
Lemma selects_length n zs ks : selects n zs ks -> length zs = length ks.
Proof. induction 1; cbn; congruence. Qed.
Lemma selects_lt n zs ks : selects n zs ks -> forall k, In k ks -> (k < n)%nat.
Proof. induction 1 as [|i k zs ks [Hk _] _ IH]; intros j Hj; [destruct Hj|]. destruct Hj as [<-|Hj]; auto. Qed.

(** the variables [marginalize] asks the wrapped module to drop *)
Definition dropped (sc : nat -> nat -> nat -> nat) (C H W : nat) (ci hi wi : list nat) : list nat :=
  flat_map (fun h => flat_map (fun c => map (fun w => sc c h w) (seq 0 W)) (seq 0 C)) hi
  ++ flat_map (fun w => flat_map (fun c => map (fun h => sc c h w) (seq 0 H)) (seq 0 C)) wi
  ++ flat_map (fun c => flat_map (fun h => map (fun w => sc c h w) (seq 0 W)) (seq 0 H)) ci.

Lemma dropped_In sc C H W ci hi wi u : (forall c, In c ci -> (c < C)%nat) -> (forall h, In h hi -> (h < H)%nat) -> (forall w, In w wi -> (w < W)%nat) ->
  In u (dropped sc C H W ci hi wi) <-> exists c h w, (c < C)%nat /\ (h < H)%nat /\ (w < W)%nat /\ (In c ci \/ In h hi \/ In w wi) /\ u = sc c h w.
Proof.
  intros Bc Bh Bw. unfold dropped. rewrite !in_app_iff. split.
  - intros [I|[I|I]]; apply in_flat_map in I; destruct I as (a & Ia & I); apply in_flat_map in I; destruct I as (b & Ib & I);
      apply in_map_iff in I; destruct I as (e & <- & Ie); apply in_seq in Ib, Ie.
    + exists b, a, e. specialize (Bh a Ia). repeat split; try lia. auto.
    + exists b, e, a. specialize (Bw a Ia). repeat split; try lia. auto.
    + exists a, b, e. specialize (Bc a Ia). repeat split; try lia. auto.
  - intros (c & h & w & Hc & Hh & Hw & [I|[I|I]] & ->).
    + right. right. apply in_flat_map. exists c. split; [exact I|]. apply in_flat_map. exists h. split; [apply in_seq; lia|]. apply in_map_iff. exists w. split; [auto|apply in_seq; lia].
    + left. apply in_flat_map. exists h. split; [exact I|]. apply in_flat_map. exists c. split; [apply in_seq; lia|]. apply in_map_iff. exists w. split; [auto|apply in_seq; lia].
    + right. left. apply in_flat_map. exists w. split; [exact I|]. apply in_flat_map. exists c. split; [apply in_seq; lia|]. apply in_map_iff. exists h. split; [auto|apply in_seq; lia].
Qed.

Lemma image_marg_unfold m (C H W : nat) cs hs ws ci hi wi prune : length (query (scope_of m)) = (C * H * W)%nat ->
  selects C cs ci -> selects H hs hi -> selects W ws wi ->
  image_marg cs hs ws prune (mkImw m (Z.of_nat C) (Z.of_nat H) (Z.of_nat W)) =
  bind (marg (dropped (fun c h w => nth (pix H W c h w) (query (scope_of m)) 0%nat) C H W ci hi wi) prune m) (fun o =>
  match o with
  | None => Ok None
  | Some m' => bind (mk_image m' (Z.of_nat C - Z.of_nat (length ci)) (Z.of_nat H - Z.of_nat (length hi)) (Z.of_nat W - Z.of_nat (length wi))) (fun g' => Ok (Some g'))
  end).
Proof.
  intros L Sc Sh Sw. unfold image_marg. cbn [w_mod w_c w_h w_w]. rewrite L, to_image_ok. cbn [bind].
  rewrite (selects_mapR _ _ _ Sh), (selects_mapR _ _ _ Sw), (selects_mapR _ _ _ Sc). cbn [bind]. rewrite !Nat2Z.id.
  rewrite (selects_length _ _ _ Sc), (selects_length _ _ _ Sh), (selects_length _ _ _ Sw). reflexivity.
Qed.

Definition rest (n : nat) (ks : list nat) : list nat := filter (fun i => negb (memb i ks)) (seq 0 n).
Lemma rest_In n ks i : In i (rest n ks) <-> (i < n)%nat /\ ~ In i ks.
Proof.
  unfold rest. rewrite filter_In, in_seq, negb_true_iff. split.
  - intros [H1 H2]. split; [lia|]. intros C. apply (memb_In i ks) in C. congruence.
  - intros [H1 H2]. split; [lia|]. destruct (memb i ks) eqn:E; [|reflexivity]. exfalso. apply H2. now apply memb_In.
Qed.
Lemma rest_length n ks : NoDup ks -> (forall k, In k ks -> (k < n)%nat) -> (length (rest n ks) + length ks = n)%nat.
Proof.
  intros ND B. rewrite <- (seq_length n 0) at 2. rewrite <- app_length. apply Permutation_length. apply NoDup_Permutation; [|apply seq_NoDup|].
  - apply LayerProofs.NoDup_app_intro; [apply NoDup_filter, seq_NoDup|exact ND|]. intros i H1 H2. apply rest_In in H1. tauto.
  - intros i. rewrite in_app_iff, rest_In, in_seq. split.
    + intros [[H _]|H]; [lia|specialize (B i H); lia].
    + intros H. destruct (in_dec Nat.eq_dec i ks); [now right|left; split; [lia|assumption]].
Qed.

Lemma length_flat_map_const {A B} (f : A -> list B) l k : (forall a, In a l -> length (f a) = k) -> length (flat_map f l) = (length l * k)%nat.
Proof.
  induction l as [|a l IH]; intros H; [reflexivity|]. cbn [flat_map length]. rewrite app_length, IH, (H a) by (auto using in_eq, in_cons). reflexivity.
Qed.

(** counting the pixels that survive *)
Lemma survivors_count C H W ci hi wi l : NoDup l ->
  (forall v, In v l <-> exists c h w, (c < C)%nat /\ (h < H)%nat /\ (w < W)%nat /\ ~ (In c ci \/ In h hi \/ In w wi) /\ v = pix H W c h w) ->
  length l = (length (rest C ci) * (length (rest H hi) * length (rest W wi)))%nat.
Proof.
  intros ND Hl. set (L := flat_map (fun c => flat_map (fun h => map (fun w => pix H W c h w) (rest W wi)) (rest H hi)) (rest C ci)).
  transitivity (length L).
  - apply Permutation_length. apply NoDup_Permutation; [exact ND| |].
    + apply flat_map_NoDup; [apply NoDup_filter, seq_NoDup| |].
      * intros c Hc. apply flat_map_NoDup; [apply NoDup_filter, seq_NoDup| |].
        -- intros h Hh. apply FinFun.Injective_map_NoDup; [intros a b; unfold pix; lia|apply NoDup_filter, seq_NoDup].
        -- intros h h' u Hh Hh' I1 I2. apply in_map_iff in I1, I2. destruct I1 as (w & <- & Iw). destruct I2 as (w' & E & Iw').
           apply rest_In in Hc, Hh, Hh', Iw, Iw'. apply (pix_inj C) in E; try tauto. symmetry. tauto.
      * intros c c' u Hc Hc' I1 I2. apply in_flat_map in I1, I2. destruct I1 as (h & Ih & I1). destruct I2 as (h' & Ih' & I2).
        apply in_map_iff in I1, I2. destruct I1 as (w & <- & Iw). destruct I2 as (w' & E & Iw').
        apply rest_In in Hc, Hc', Ih, Ih', Iw, Iw'. apply (pix_inj C) in E; try tauto. symmetry. tauto.
    + intros u. rewrite Hl. unfold L. rewrite in_flat_map. split.
      * intros (c & h & w & Hc & Hh & Hw & N & ->). exists c. split; [apply rest_In; tauto|]. apply in_flat_map. exists h. split; [apply rest_In; tauto|].
        apply in_map_iff. exists w. split; [reflexivity|apply rest_In; tauto].
      * intros (c & Ic & I). apply in_flat_map in I. destruct I as (h & Ih & I). apply in_map_iff in I. destruct I as (w & <- & Iw). apply rest_In in Ic, Ih, Iw.
        exists c, h, w. tauto.
  - unfold L. rewrite (length_flat_map_const _ _ (length (rest H hi) * length (rest W wi))); [reflexivity|].
    intros c _. rewrite (length_flat_map_const _ _ (length (rest W wi))); [reflexivity|]. intros h _. apply map_length.
Qed.

Lemma rest_nil n ks : NoDup ks -> (forall k, In k ks -> (k < n)%nat) -> length ks = n <-> rest n ks = [].
Proof.
  intros ND B. pose proof (rest_length n ks ND B) as E. split.
  - intros L. destruct (rest n ks); [reflexivity|cbn in E; lia].
  - intros R. rewrite R in E. cbn in E. lia.
Qed.
