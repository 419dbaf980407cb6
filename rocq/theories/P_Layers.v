(** Properties C21-C25, C68-C76: layers over several inputs. *)
From Coq Require Import List Arith Bool Lia Lra Permutation.
From Verif Require Import Base ScopeModel CircuitModel CircuitSpec CircuitEval Integral CircuitMarg CircuitExamples
  SampleModel SampleSpec EmModel EmProofs SplitModel SplitProofs LayerModel LayerSpec LayerProofs.
Import ListNotations.
Local Open Scope R_scope.

(** *** C21: OuterProduct *)
(** [iproduct counts] is the table output channel -> tuple of input channels *)
Theorem C21_bijection : forall counts,
  length (iproduct counts) = fold_right Nat.mul 1%nat counts /\ NoDup (iproduct counts) /\
  forall t, In t (iproduct counts) <-> length t = length counts /\ forall i, (i < length counts)%nat -> (nth i t 0 < nth i counts 0)%nat.
Proof. exact c21_channels. Qed.
Print Assumptions C21_bijection.

(** [outer_map counts c] is what sampling decodes output channel [c] into *)
Theorem C21_loglik : forall ts s f c r t, positive_channels ts -> outer_shape ts = Ok s -> outer_map (map t_ch ts) c = Ok t ->
  outer_ll ts f c r = ladds (length ts) (fun i => t_ll (nth i ts no_tens) (bidx (t_ft (nth i ts no_tens)) f) (nth i t 0%nat) r).
Proof. exact c21_ll. Qed.
Print Assumptions C21_loglik.

(** one input split into [n] parts of width [w]: output channels [cs f] are decoded
    ([tup f]) and laid out over the input's features ([out]); the log-likelihood is
    the sum over the input features at exactly those channels *)
Theorem C21_split : forall k n w t ps s out r (cs : nat -> nat) (tup : nat -> list nat), (0 < n)%nat -> (0 < w)%nat -> (0 < t_ch t)%nat ->
  t_ft t = (w * n)%nat -> split_parts k n t = Ok ps -> outer_shape ps = Ok s ->
  (forall f, (f < w)%nat -> outer_map (map t_ch ps) (cs f) = Ok (tup f)) ->
  unsplit k w n (fun f i => nth i (tup f) 0%nat) = Ok out ->
  features s = w /\ length out = (w * n)%nat /\
  forall f, (f < w)%nat -> outer_ll ps f (cs f) r =
    ladds n (fun i => t_ll t (in_feature k w n f i) (nth (in_feature k w n f i) out 0%nat) r).
Proof. exact c21_split. Qed.
Print Assumptions C21_split.

Theorem C21_distribution : forall D ins s f c r ws,
  Forall (inp_ok D) ins -> Forall (fun i => (0 < channels (i_sh i))%nat) ins -> disjoint_vars ins ->
  outer_shape (map (at_row (fun _ => None)) ins) = Ok s -> in_shape s f c r ->
  (forall v, In v ws <-> exists i, (i < length ins)%nat /\ In v (i_vars (nth i ins no_inp) (bidx (features (i_sh (nth i ins no_inp))) f))) ->
  is_dist D ws (fun x => outer_ll (map (at_row x) ins) f c r).
Proof. exact c21_dist. Qed.
Print Assumptions C21_distribution.

(** [is_dist] means what C01/C02 mean, and every circuit is an admissible input *)
Theorem C21_is_dist_meaning : forall D vs g, is_dist D vs g ->
  (NoDup vs -> forall x, sums_over D vs (fun y => pr (g y)) x 1) /\
  (forall ws x, NoDup ws -> incl ws vs -> sums_over D ws (fun y => pr (g y)) x (pr (g (set_nan ws x)))).
Proof. intros D vs g H. split; [now apply is_dist_sums|]. intros. now apply (is_dist_marginal D vs g H). Qed.
Print Assumptions C21_is_dist_meaning.
Theorem C21_circuits_are_inputs : forall D m s, built m -> aligned m -> leaves_norm D m -> ll_shape m = Ok s -> inp_ok D (inp_of m s).
Proof. exact inp_of_ok. Qed.
Print Assumptions C21_circuits_are_inputs.

Example C21_ex : outer_map [2; 3]%nat 4 = Ok [1; 1]%nat /\ outer_channels [2; 3]%nat = 6%nat /\ outer_map [2; 3]%nat 6 = Err.
Proof. repeat split; reflexivity. Qed.
Definition ex_t (F C : nat) : tens := mkT (mkShape F C 1) (fun f c r => Fin (INR (10 * f + c))).
Example C21_ex_shape : outer_shape [ex_t 2 2; ex_t 2 3] = Ok (mkShape 2 6 1) /\ positive_channels [ex_t 2 2; ex_t 2 3].
Proof. split; [reflexivity|]. repeat constructor; cbn; lia. Qed.
Example C21_ex_split : exists ps out, split_parts Consecutive 2 (ex_t 4 2) = Ok ps /\ outer_shape ps = Ok (mkShape 2 4 1) /\
  outer_map (map t_ch ps) 1 = Ok [0; 1]%nat /\ unsplit Consecutive 2 2 (fun f i => nth i [0; 1]%nat 0%nat) = Ok out /\ out = [0; 0; 1; 1]%nat.
Proof. eexists _, _. repeat split; reflexivity. Qed.

(** *** C68: feature_to_scope of an OuterProduct with more than one feature *)
Theorem C68_outer_feature_to_scope_refuted : exists ts (scopes : list (list (list nat))) s,
  outer_shape ts = Ok s /\ map (@length _) scopes = map t_ft ts /\ length (outer_fts scopes) <> features s.
Proof. exists [ex_t 2 1; ex_t 2 1], [[[0]; [1]]; [[2]; [3]]]%nat, (mkShape 2 1 1). repeat split; try reflexivity. cbn. lia. Qed.
Print Assumptions C68_outer_feature_to_scope_refuted.

(** *** C69: shapes the constructors accept but log_likelihood cannot evaluate *)
Theorem C69_outer_shapes_refuted : exists ts, outer_check (map (fun t => (t_ft t, t_ch t)) ts) = true /\ outer_shape ts = Err.
Proof. exists [ex_t 2 1; ex_t 3 1]. split; reflexivity. Qed.
Print Assumptions C69_outer_shapes_refuted.
(** the feature broadcasting the documentation of ElementwiseProduct promises:
    ((3,4),(1,4)) -> (3,4) *)
Theorem C69_elementwise_shapes_refuted : exists ts, map (fun t => (t_ft t, t_ch t)) ts = [(3, 4); (1, 4)]%nat /\
  ew_accepts ts = true /\ ew_check (map (fun t => (t_ft t, t_ch t)) ts) = true /\ ew_shape ts = Err.
Proof. exists [ex_t 3 4; ex_t 1 4]. repeat split; reflexivity. Qed.
Print Assumptions C69_elementwise_shapes_refuted.

(** *** C22: ElementwiseProduct *)
Theorem C22_loglik_and_routing : forall ts s f c r, ew_shape ts = Ok s -> (c < channels s)%nat ->
  ew_ll ts f c r = ladds (length ts) (fun i => t_ll (nth i ts no_tens) f (nth i (ew_map ts c) 0%nat) r) /\
  forall i, (i < length ts)%nat -> (0 < t_ch (nth i ts no_tens))%nat ->
    (nth i (ew_map ts c) 0 < t_ch (nth i ts no_tens))%nat /\
    (t_ch (nth i ts no_tens) = channels s -> nth i (ew_map ts c) 0%nat = c).
Proof. exact c22_ll. Qed.
Print Assumptions C22_loglik_and_routing.

Theorem C22_split : forall k n w t ps out (cs : nat -> nat) r s, (0 < n)%nat -> (0 < w)%nat -> (0 < t_ch t)%nat ->
  t_ft t = (w * n)%nat -> split_parts k n t = Ok ps -> ew_shape ps = Ok s ->
  unsplit k w n (fun f _ => cs f) = Ok out -> (forall f, (f < w)%nat -> (cs f < t_ch t)%nat) ->
  s = mkShape w (t_ch t) (repetitions (t_sh t)) /\ length out = (w * n)%nat /\
  forall f, (f < w)%nat -> ew_ll ps f (cs f) r =
    ladds n (fun i => t_ll t (in_feature k w n f i) (nth (in_feature k w n f i) out 0%nat) r).
Proof. exact c22_split. Qed.
Print Assumptions C22_split.

Theorem C22_distribution : forall D ins s f c r ws,
  Forall (inp_ok D) ins -> Forall (fun i => (0 < channels (i_sh i))%nat) ins -> disjoint_vars ins ->
  ew_shape (map (at_row (fun _ => None)) ins) = Ok s -> in_shape s f c r ->
  (forall v, In v ws <-> exists i, (i < length ins)%nat /\ In v (i_vars (nth i ins no_inp) f)) ->
  is_dist D ws (fun x => ew_ll (map (at_row x) ins) f c r).
Proof. exact c22_dist. Qed.
Print Assumptions C22_distribution.

Example C22_ex : ew_shape [ex_t 3 4; ex_t 3 1] = Ok (mkShape 3 4 1) /\ ew_map [ex_t 3 4; ex_t 3 1] 2 = [2; 0]%nat.
Proof. split; reflexivity. Qed.
Example C22_ex_split : exists ps, split_parts Interleaved 2 (ex_t 4 2) = Ok ps /\ ew_shape ps = Ok (mkShape 2 2 1) /\
  unsplit Interleaved 2 2 (fun f _ : nat => f) = Ok [0; 0; 1; 1]%nat.
Proof. eexists. repeat split; reflexivity. Qed.

(** *** C23: ElementwiseSum *)
(** flat output channel c = (c / S) * S + (c mod S): input channel c / S, sum c mod S *)
Theorem C23_loglik : forall S lg ts f c r, (0 < length ts)%nat ->
  pr (esum_ll S lg ts f c r) = bsum (length ts) (fun i =>
    softmax (length ts) (fun j => lg f (c / S)%nat (c mod S)%nat j r) i *
    pr (t_ll (nth i ts no_tens) f (bidx (t_ch (nth i ts no_tens)) (c / S)%nat) r)).
Proof. exact pr_esum. Qed.
Print Assumptions C23_loglik.

Theorem C23_weights : forall n (g : nat -> R), (0 < n)%nat -> (forall i, 0 < softmax n g i) /\ bsum n (softmax n g) = 1.
Proof. intros n g H. split; [intros; now apply softmax_pos|now apply softmax_sum]. Qed.
Print Assumptions C23_weights.

Theorem C23_distribution : forall D S lg ins F Cm Rr f c r vs, (0 < S)%nat -> ins <> [] -> Forall (inp_ok D) ins ->
  Forall (fun i => features (i_sh i) = F /\ (channels (i_sh i) = 1%nat \/ channels (i_sh i) = Cm) /\ repetitions (i_sh i) = Rr) ins ->
  (f < F)%nat -> (c < Cm * S)%nat -> (r < Rr)%nat ->
  (forall i v, (i < length ins)%nat -> In v (i_vars (nth i ins no_inp) f) <-> In v vs) ->
  is_dist D vs (fun x => esum_ll S lg (map (at_row x) ins) f c r).
Proof. exact c23_dist. Qed.
Print Assumptions C23_distribution.

(** the selected input follows the prior weights resp. the posterior, for every
    test function [h] of the selected input *)
Theorem C23_selection : forall D S lg ts f c r, (0 < length ts)%nat -> forall h,
  let n := length ts in
  let w i := softmax n (fun j => lg f (c / S)%nat (c mod S)%nat j r) i in
  expects D (esum_pick false S lg n None f c r) h (bsum n (fun i => w i * h i)) /\
  (pr (esum_ll S lg ts f c r) <> 0 ->
   expects D (esum_pick false S lg n (Some ts) f c r) h
     (bsum n (fun i => w i * pr (t_ll (nth i ts no_tens) f (bidx (t_ch (nth i ts no_tens)) (c / S)%nat) r)
                        / pr (esum_ll S lg ts f c r) * h i))).
Proof. exact c23_pick. Qed.
Print Assumptions C23_selection.

Theorem C23_routing : forall S ts i c Cm, (0 < S)%nat -> (i < length ts)%nat -> t_ch (nth i ts no_tens) = Cm -> (c < Cm * S)%nat ->
  esum_route S ts i c = Ok (c / S)%nat.
Proof.
  intros S ts i c Cm HS Hi HC Hc. unfold esum_route, esum_ci. rewrite HC.
  destruct (Nat.ltb_spec (c / S) Cm) as [|H]; [reflexivity|].
  exfalso. assert (c / S < Cm)%nat by (apply Nat.div_lt_upper_bound; lia). lia.
Qed.
Print Assumptions C23_routing.

Example C23_ex : esum_route 2 [ex_t 1 3; ex_t 1 3] 1 5 = Ok 2%nat /\ esum_channels 2 [ex_t 1 3; ex_t 1 3] = 6%nat.
Proof. split; reflexivity. Qed.

(** C70: a single-channel input is broadcast by log_likelihood but cannot be
    sampled from *)
Theorem C70_broadcast_sampling_refuted : exists S ts i c, (i < length ts)%nat /\ (c < esum_channels S ts)%nat /\
  Forall (fun t => t_ch t = 1%nat \/ t_ch t = 3%nat) ts /\ esum_route S ts i c = Err.
Proof. exists 1%nat, [ex_t 1 1; ex_t 1 3], 0%nat, 2%nat. split; [cbn; lia|]. split; [cbv; lia|].
  split; [constructor; [left; reflexivity|constructor; [right; reflexivity|constructor]]|reflexivity]. Qed.
Print Assumptions C70_broadcast_sampling_refuted.

(** *** C24: EinsumLayer, LinsumLayer *)
(** every contraction schedule; rows that some channel on either side can explain *)
Theorem C24_einsum_loglik : forall s I J lg l r_ f o r,
  (exists i, (i < I)%nat /\ l f i r <> NInf) -> (exists j, (j < J)%nat /\ r_ f j r <> NInf) ->
  einsum_ll s I J lg l r_ f o r =
  of_lval (lfrom (bsum I (fun i => bsum J (fun j => pair_weight I J lg f o r i j * (pr (l f i r) * pr (r_ f j r)))))).
Proof. exact c24_einsum. Qed.
Print Assumptions C24_einsum_loglik.

Theorem C24_einsum_weights : forall I J lg f o r, (0 < I * J)%nat ->
  (forall i j, 0 < pair_weight I J lg f o r i j) /\ bsum I (fun i => bsum J (fun j => pair_weight I J lg f o r i j)) = 1.
Proof. intros. split; [intros; now apply pair_weight_pos|now apply pair_weight_sum]. Qed.
Print Assumptions C24_einsum_weights.

Theorem C24_einsum_distribution : forall D I J lg (L R_ : inp) f o r ws, (0 < I * J)%nat -> inp_ok D L -> inp_ok D R_ ->
  (forall i, (i < I)%nat -> in_shape (i_sh L) f i r) -> (forall j, (j < J)%nat -> in_shape (i_sh R_) f j r) ->
  (forall v, In v (i_vars L f) -> ~ In v (i_vars R_ f)) -> (forall v, In v ws <-> In v (i_vars L f) \/ In v (i_vars R_ f)) ->
  is_dist D ws (fun x => lfrom (bsum I (fun i => bsum J (fun j =>
    pair_weight I J lg f o r i j * (pr (i_ll L x f i r) * pr (i_ll R_ x f j r)))))).
Proof. exact c24_einsum_dist. Qed.
Print Assumptions C24_einsum_distribution.

Theorem C24_einsum_sampling : forall D I J lg a b f o r h, (0 < I * J)%nat ->
  let w := pair_weight I J lg f o r in
  let Z := bsum I (fun i => bsum J (fun j => w i j * (pr (a f i r) * pr (b f j r)))) in
  expects D (einsum_pick false I J lg None f o r) h (bsum I (fun i => bsum J (fun j => w i j * h (i, j)))) /\
  (Z <> 0 -> expects D (einsum_pick false I J lg (Some (a, b)) f o r) h
     (bsum I (fun i => bsum J (fun j => w i j * (pr (a f i r) * pr (b f j r)) / Z * h (i, j))))).
Proof. exact c24_einsum_pick. Qed.
Print Assumptions C24_einsum_sampling.

Theorem C24_linsum_loglik : forall C lg l r_ f o r, (0 < C)%nat ->
  pr (linsum_ll C lg l r_ f o r) = bsum C (fun c => softmax C (lg f o r) c * (pr (l f c r) * pr (r_ f c r))).
Proof. exact c24_linsum. Qed.
Print Assumptions C24_linsum_loglik.

Theorem C24_linsum_distribution : forall D C lg (L R_ : inp) f o r ws, (0 < C)%nat -> inp_ok D L -> inp_ok D R_ ->
  (forall i, (i < C)%nat -> in_shape (i_sh L) f i r) -> (forall j, (j < C)%nat -> in_shape (i_sh R_) f j r) ->
  (forall v, In v (i_vars L f) -> ~ In v (i_vars R_ f)) -> (forall v, In v ws <-> In v (i_vars L f) \/ In v (i_vars R_ f)) ->
  is_dist D ws (fun x => linsum_ll C lg (i_ll L x) (i_ll R_ x) f o r).
Proof. exact c24_linsum_dist. Qed.
Print Assumptions C24_linsum_distribution.

Theorem C24_linsum_sampling : forall D C lg a b f o r h, (0 < C)%nat ->
  expects D (linsum_pick false C lg None f o r) h (bsum C (fun c => softmax C (lg f o r) c * h (c, c))) /\
  (pr (linsum_ll C lg a b f o r) <> 0 -> expects D (linsum_pick false C lg (Some (a, b)) f o r) h
     (bsum C (fun c => softmax C (lg f o r) c * (pr (a f c r) * pr (b f c r)) / pr (linsum_ll C lg a b f o r) * h (c, c)))).
Proof. exact c24_linsum_pick. Qed.
Print Assumptions C24_linsum_sampling.

(** two leaves over bits: a non-trivial instance of the hypotheses *)
Definition coinL (v : nat) : leaf := bern [v] 2 1 (fun _ c _ => if Nat.eqb c 0 then 3/4 else 1/2).
Lemma coin_norm v : leaves_norm (fun _ => bits) (MLeaf (coinL v)).
Proof. constructor; [|constructor]. apply bern_norm. intros f c r. destruct (Nat.eqb c 0); lra. Qed.
Example C24_ex : exists L R_, inp_ok (fun _ => bits) L /\ inp_ok (fun _ => bits) R_ /\ i_sh L = mkShape 1 2 1 /\ i_sh R_ = mkShape 1 2 1 /\
  i_vars L 0 = [0%nat] /\ i_vars R_ 0 = [1%nat].
Proof.
  exists (inp_of (MLeaf (coinL 0)) (mkShape 1 2 1)), (inp_of (MLeaf (coinL 1)) (mkShape 1 2 1)).
  split; [apply inp_of_ok; [apply b_leaf; reflexivity|exact I|apply coin_norm|reflexivity]|].
  split; [apply inp_of_ok; [apply b_leaf; reflexivity|exact I|apply coin_norm|reflexivity]|].
  repeat split; reflexivity.
Qed.

(** C71: a row that one side cannot explain gives NaN instead of -inf *)
Theorem C71_einsum_impossible_refuted : forall s I J lg l r_ f o r, (0 < I)%nat ->
  (forall i, (i < I)%nat -> l f i r = NInf) ->
  lfrom (bsum I (fun i => bsum J (fun j => pair_weight I J lg f o r i j * (pr (l f i r) * pr (r_ f j r))))) = NInf /\
  einsum_ll s I J lg l r_ f o r = FNan.
Proof.
  intros s I J lg l r_ f o r HI H. split; [|now apply c24_einsum_nan].
  apply pr_inj. cbn [pr]. rewrite bsum_zero; [apply pr_lfrom; lra|].
  intros i Hi. apply bsum_zero. intros j _. rewrite H by assumption. cbn. ring.
Qed.
Print Assumptions C71_einsum_impossible_refuted.

(** C72: sampling through a split input.  The channel of feature f of part i goes to
    input feature [in_feature k w 2 f i]; the mask of feature f should go there too. *)
Theorem C72_interleaved_mask_partial : forall left right mask out f i, length left = length mask -> length right = length mask -> (f < length mask)%nat -> (i < 2)%nat ->
  half_channels Interleaved left right = Ok out ->
  nth (in_feature Interleaved (length mask) 2 f i) out 0%nat = nth f (if Nat.eqb i 0 then left else right) 0%nat /\
  nth (in_feature Interleaved (length mask) 2 f i) (half_mask mask) false = nth f mask false.
Proof.
  intros left right mask out f i HL HR Hf Hi E. cbn [in_feature]. split.
  - cbn [half_channels merge_interleaved forallb] in E. rewrite HL, HR, Nat.eqb_refl in E. cbn in E. injection E as <-.
    revert left right mask HL HR Hf. induction f as [|f IH]; intros [|a left] [|b right] [|m mask] HL HR Hf; cbn in *; try lia; try discriminate.
    + destruct i as [|[|i]]; [reflexivity|reflexivity|lia].
    + rewrite (IH left right mask) by lia. destruct (Nat.eqb i 0); reflexivity.
  - clear E. revert mask left right HL HR Hf. induction f as [|f IH]; intros mask left right HL HR Hf; (destruct mask as [|m mask]; [cbn in Hf; lia|]).
    + destruct i as [|[|i]]; [reflexivity|reflexivity|lia].
    + cbn [half_mask flat_map app]. replace (S f * 2 + i)%nat with (S (S (f * 2 + i))) by lia. cbn [nth].
      apply (IH mask (repeat 0%nat (length mask)) (repeat 0%nat (length mask))); rewrite ?repeat_length; auto. cbn in Hf. lia.
Qed.
Print Assumptions C72_interleaved_mask_partial.
Theorem C72_consecutive_mask_refuted : exists mask f i, (f < length mask)%nat /\ (i < 2)%nat /\
  nth (in_feature Consecutive (length mask) 2 f i) (half_mask mask) false <> nth f mask false.
Proof. exists [true; false], 1%nat, 0%nat. split; [cbn; lia|]. split; [lia|]. cbn. discriminate. Qed.
Print Assumptions C72_consecutive_mask_refuted.

(** C73: feature_to_scope of a single-input EinsumLayer/LinsumLayer pairs features
    (2f, 2f+1); the default consecutive split combines (f, f+w) *)
Theorem C73_einsum_scopes_refuted : exists (scopes : list (list nat)) w f, length scopes = (2 * w)%nat /\ (f < w)%nat /\
  einsum_fts scopes f <> pjoin [nth (in_feature Consecutive w 2 f 0) scopes []; nth (in_feature Consecutive w 2 f 1) scopes []].
Proof. exists [[0]; [1]; [2]; [3]]%nat, 2%nat, 0%nat. split; [reflexivity|]. split; [lia|]. cbn. discriminate. Qed.
Print Assumptions C73_einsum_scopes_refuted.

(** C74: a split into more than two parts is accepted and the features of the other
    parts are silently ignored (4 features, 4 parts) *)
Theorem C74_einsum_ignores_features_refuted : exists I lg (t t' : tens) parts parts',
  t_ft t = 4%nat /\ split_consecutive 4 (slices t) = Ok parts /\ split_consecutive 4 (slices t') = Ok parts' /\
  (forall c r, t_ll t 2 c r <> t_ll t' 2 c r) /\ (forall f c r, f <> 2%nat -> t_ll t f c r = t_ll t' f c r) /\
  forall s f o r, exists v, einsum_single_ll s I lg 2 parts f o r = Ok v /\ einsum_single_ll s I lg 2 parts' f o r = Ok v.
Proof.
  exists 1%nat, (fun _ _ _ _ _ => 0), (mkT (mkShape 4 1 1) (fun f c r => Fin 0)),
    (mkT (mkShape 4 1 1) (fun f c r => if Nat.eqb f 2 then Fin 1 else Fin 0)).
  eexists _, _. split; [reflexivity|]. split; [reflexivity|]. split; [reflexivity|]. split.
  - intros c r E. cbn in E. injection E as E. lra.
  - split.
    + intros f c r Hf. cbn. destruct (Nat.eqb_spec f 2); [contradiction|reflexivity].
    + intros s f o r. eexists. split; reflexivity.
Qed.
Print Assumptions C74_einsum_ignores_features_refuted.

(** C75: marginalising an EinsumLayer replaces its weights by random ones; [l] and
    [r_] are the inputs' log-likelihoods with the marginalised cells missing *)
Theorem C75_einsum_marginalize_refuted : exists I J (lg : pair_logits) rnd l r_,
  (forall f o r i j, 0 <= rnd f o r i j < 1) /\
  einsum_ll Dense I J (marg_pair_logits I J rnd) l r_ 0 0 0 <> einsum_ll Dense I J lg l r_ 0 0 0.
Proof.
  set (l := fun (f i r : nat) => if Nat.eqb i 0 then Fin (ln (1/2)) else Fin 0).
  set (r_ := fun (f j r : nat) => Fin 0).
  set (rnd := fun (f o r i j : nat) => if Nat.eqb i 0 then 0 else 1/2).
  exists 2%nat, 1%nat, (fun _ _ _ _ _ => 0), rnd, l, r_. split.
  - intros. unfold rnd. destruct (Nat.eqb i 0); lra.
  - assert (HL : exists i, (i < 2)%nat /\ l 0%nat i 0%nat <> NInf) by (exists 1%nat; split; [lia|discriminate]).
    assert (HR : exists j, (j < 1)%nat /\ r_ 0%nat j 0%nat <> NInf) by (exists 0%nat; split; [lia|discriminate]).
    rewrite !c24_einsum by assumption. unfold einsum_spec. intros E.
    assert (E' : forall a b, of_lval a = of_lval b -> a = b) by (intros [|a] [|b] H; try discriminate; [reflexivity|now injection H as ->]).
    apply E' in E. apply (f_equal pr) in E.
    set (k := / 10 ^ 8) in *. assert (Hk : 0 < k <= 1/100) by (unfold k; split; [apply Rinv_0_lt_compat; apply pow_lt; lra|]; apply Rle_trans with (/ 10 ^ 2); [apply Rinv_le_contravar; [lra|apply Rle_pow; [lra|lia]]|lra]).
    assert (Hw0 : 0 < fresh_pair_weight 2 1 rnd 0 0 0 0 0) by (unfold fresh_pair_weight, rnd; cbn [bsum Nat.eqb]; fold k; apply Rdiv_lt_0_compat; lra).
    assert (Hw1 : 0 < fresh_pair_weight 2 1 rnd 0 0 0 1 0) by (unfold fresh_pair_weight, rnd; cbn [bsum Nat.eqb]; fold k; apply Rdiv_lt_0_compat; lra).
    rewrite !pr_lfrom in E.
    + cbn [bsum] in E. unfold pair_weight, softmax, flat_logits, marg_pair_logits in E.
      cbn [bsum mult plus] in E. change (0 / 1)%nat with 0%nat in E. change (0 mod 1)%nat with 0%nat in E.
      change (1 / 1)%nat with 1%nat in E. change (1 mod 1)%nat with 0%nat in E.
      change (1 * 1 + 0)%nat with 1%nat in E.
      change (1 / 1)%nat with 1%nat in E. change (1 mod 1)%nat with 0%nat in E.
      unfold l, r_ in E. cbn [Nat.eqb pr] in E. rewrite exp_0, !exp_ln in E by (assumption || lra).
      unfold fresh_pair_weight, rnd in E. cbn [bsum Nat.eqb] in E. fold k in E.
      assert (HS : 0 + (0 + (0 + k)) + (0 + (1 / 2 + k)) <> 0) by lra.
      match type of E with ?a = ?b => assert (E1 : a = (3 / 2 * k + 1 / 2) / (2 * k + 1 / 2)) by (field; repeat split; lra); assert (E2 : b = 3 / 4) by field; rewrite E1, E2 in E; clear E1 E2 end.
      apply (Rmult_eq_compat_r (2 * k + 1/2)) in E. unfold Rdiv at 1 in E. rewrite Rmult_assoc, Rinv_l in E by lra. lra.
    + apply bsum_nonneg. intros i _. apply bsum_nonneg. intros j _. apply Rmult_le_pos; [apply Rlt_le, pair_weight_pos; lia|apply Rmult_le_pos; apply pr_nonneg].
    + apply bsum_nonneg. intros i _. apply bsum_nonneg. intros j _. apply Rmult_le_pos; [apply Rlt_le, pair_weight_pos; lia|apply Rmult_le_pos; apply pr_nonneg].
Qed.
Print Assumptions C75_einsum_marginalize_refuted.
Theorem C75_einsum_marginalize_channels_refuted : exists O I J, marg_pair_channels false true O I J <> Some O.
Proof. exists 1%nat, 2%nat, 2%nat. discriminate. Qed.
Print Assumptions C75_einsum_marginalize_channels_refuted.

(** *** C25: RepetitionMixingLayer *)
Theorem C25_loglik : forall Rr lg l f c, (0 < Rr)%nat ->
  pr (repmix_ll Rr lg l f c) = bsum Rr (fun r => softmax Rr (lg f c) r * pr (l f c r)).
Proof. exact c25_ll. Qed.
Print Assumptions C25_loglik.
Theorem C25_distribution : forall D Rr lg (L : inp) f c vs, (0 < Rr)%nat -> inp_ok D L -> (forall r, (r < Rr)%nat -> in_shape (i_sh L) f c r) ->
  (forall v, In v vs <-> In v (i_vars L f)) -> is_dist D vs (fun x => repmix_ll Rr lg (i_ll L x) f c).
Proof. exact c25_dist. Qed.
Print Assumptions C25_distribution.
(** with one channel the repetition is drawn from the prior resp. the posterior *)
Theorem C25_sampling_one_channel : forall D Rr lg l h, (0 < Rr)%nat ->
  expects D (repmix_pick false 1 Rr lg None) h (bsum Rr (fun r => softmax Rr (lg 0%nat 0%nat) r * h r)) /\
  (pr (repmix_ll Rr lg l 0 0) <> 0 -> expects D (repmix_pick false 1 Rr lg (Some l)) h
     (bsum Rr (fun r => softmax Rr (lg 0%nat 0%nat) r * pr (l 0%nat 0%nat r) / pr (repmix_ll Rr lg l 0 0) * h r))).
Proof. exact c25_pick. Qed.
Print Assumptions C25_sampling_one_channel.

(** C76: with two channels the weights of both channels are multiplied: channel 0
    mixes its repetitions with weights (1/2, 1/2), but repetition 0 is drawn with
    probability 1/4 because channel 1 has weights (1/4, 3/4) *)
Theorem C76_sampling_channels_refuted : exists lg, (forall r, (r < 2)%nat -> softmax 2 (lg 0%nat 0%nat) r = 1/2) /\
  forall D, expects D (repmix_pick false 2 2 lg None) (fun r => if Nat.eqb r 0 then 1 else 0) (1/4).
Proof.
  exists (fun f c r => if Nat.eqb c 0 then 0 else if Nat.eqb r 0 then 0 else ln 3). split.
  - intros [|[|r]] Hr; try lia; unfold softmax; cbn; rewrite exp_0; lra.
  - intros D. unfold repmix_pick.
    set (g := fun r => ladds 2 _).
    assert (E0 : pr (g 0%nat) = 1) by (unfold g; rewrite pr_ladds; cbn; rewrite exp_0; lra).
    assert (E1 : pr (g 1%nat) = 3) by (unfold g; rewrite pr_ladds; cbn; rewrite exp_0, exp_ln by lra; lra).
    assert (HZ : 0 < bsum 2 (fun i => pr (g i))) by (cbn [bsum]; rewrite E0, E1; lra).
    pose proof (sample_logits_post D 2 g HZ (fun r => if Nat.eqb r 0 then 1 else 0)) as E.
    match type of E with expects _ _ _ ?u => replace (1/4) with u; [exact E|] end.
    cbn [bsum Nat.eqb]. rewrite E0, E1. field.
Qed.
Print Assumptions C76_sampling_channels_refuted.

(** convex weights over two repetitions are rejected by the constructor *)
Theorem C76_constructor_weights_refuted : exists w, (forall f c r, 0 < w f c r) /\ bsum 2 (fun r => w 0%nat 0%nat r) = 1 /\
  repmix_set true 1 1 2 w = Err /\ exists lg, repmix_set false 1 1 2 w = Ok lg.
Proof.
  exists (fun _ _ _ => 1/2). split; [intros; lra|]. split; [cbn; lra|].
  assert (Hp : rlt 0 (1/2) = true) by (unfold rlt; destruct (Rlt_dec 0 (1/2)); [reflexivity|lra]).
  assert (Hk : 0 < / 10 ^ 8 /\ / 10 ^ 8 <= /10^2 /\ / 10 ^ 5 <= / 10 ^ 2).
  { split; [apply Rinv_0_lt_compat, pow_lt; lra|]. split; apply Rinv_le_contravar; try lra; apply Rle_pow; try lra; lia. }
  assert (H5 : 0 < / 10 ^ 5) by (apply Rinv_0_lt_compat, pow_lt; lra).
  assert (Hn : close1 (0 + 1/2) = false).
  { unfold close1, rle. destruct (Rle_dec _ _) as [H|]; [|reflexivity]. rewrite Rabs_left in H by lra. lra. }
  assert (Hy : close1 (0 + 1/2 + 1/2) = true).
  { unfold close1, rle. destruct (Rle_dec _ _) as [H|H]; [reflexivity|]. exfalso. apply H. replace (0 + 1/2 + 1/2 - 1) with 0 by lra. rewrite Rabs_R0. lra. }
  split.
  - unfold repmix_set, allb. cbn [seq forallb]. rewrite Hp. cbn [andb negb bsum]. rewrite Hn. reflexivity.
  - eexists. unfold repmix_set, allb. cbn [seq forallb]. rewrite Hp. cbn [andb negb bsum]. rewrite Hy. reflexivity.
Qed.
Print Assumptions C76_constructor_weights_refuted.

(** the declared shape keeps the repetitions that log_likelihood mixes away *)
Theorem C76_declared_shape_refuted : exists co nr t, repmix_declared co nr t <> repmix_actual co t.
Proof. exists 1%nat, 2%nat, (ex_t 1 1). discriminate. Qed.
Print Assumptions C76_declared_shape_refuted.
