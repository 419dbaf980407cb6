(** Properties C52, C136-C142: PiecewiseLinear leaves. *)
From Coq Require Import List Arith ZArith Bool Reals Lra Lia.
From Coquelicot Require Import Coquelicot.
From Verif Require Import Base ScopeModel CircuitModel Integral LeafModel SampleModel SampleSpec CtxModel MleModel CtxProofs IvProofs HistModel HistSpec HistProofs HistEdges PwlModel PwlSpec PwlProofs PwlTop PwlMain PwlInit.
Import ListNotations.
Local Open Scope R_scope.

(** C52: for all valid knots the leaf evaluates the polygon through the knots
    (plus the constant 1e-10, see C136), whatever the padding [M] ... *)
Theorem C52_density : forall w M x, pw_ok w ->
  exists v, polygon w x v /\ (forall v', polygon w x v' -> v' = v) /\ 0 <= v /\ pr (p_log_prob M w x) = v + / 10 ^ 10.
Proof.
  intros w M x OK. exists (interp_at M w x). split; [now apply polygon_interp|]. split; [intros v'; now apply polygon_fun|].
  split; [apply interp_nonneg|apply reported].
Qed.
Print Assumptions C52_density.
(** ... whose integral is the trapezoid area; *)
Theorem C52_integral : forall w g, pw_ok w -> (forall x, polygon w x (g x)) -> sums DReal g (polygon_area w).
Proof.
  intros w g OK H. apply (sums_ext DReal (interp_at 0 w)); [|now apply interp_sums]. intros x. symmetry. now apply polygon_fun.
Qed.
Print Assumptions C52_integral.
(** the mode is a knot and no point has a greater density; *)
Theorem C52_mode : forall w, pw_ok w -> In (p_mode w) (p_xs w) /\
  (forall x v vm, polygon w x v -> polygon w (p_mode w) vm -> v <= vm) /\
  forall M x, pr (p_log_prob M w x) <= pr (p_log_prob M w (p_mode w)).
Proof.
  intros w OK. split; [apply nth_In; exact (mode_index w OK)|]. split.
  - intros x v vm H1 H2. rewrite (polygon_fun w x v 0 OK H1), (polygon_fun w _ vm 0 OK H2). now apply mode_max.
  - intros M x. rewrite !reported. pose proof (mode_max w OK M x). lra.
Qed.
Print Assumptions C52_mode.
(** a continuous sample falls between two consecutive knots (but for the last two)
    with probability the area there over (total area + 1e-10). *)
Theorem C52_sampling : forall w mn mx k, pw_ok w -> 0 < polygon_area w -> (S (S k) < length (p_xs w))%nat ->
  let a := nth k (p_xs w) 0 in let b := nth (S k) (p_xs w) 0 in
  expects (fun _ => DReal) (p_sample (PContinuous mn mx) w) (fun x => if rle a x && rlt x b then 1 else 0)
    ((b - a) * (nth k (p_ys w) 0 + nth (S k) (p_ys w) 0) / 2 / (polygon_area w + / 10 ^ 10)).
Proof.
  intros w mn mx k OK A Hk a b. cbn [p_sample expects]. exists (fun u => if rle a (inv_cdf w u) && rlt (inv_cdf w u) b then 1 else 0).
  split; [reflexivity|]. pose proof (tiny_pos) as TP.
  replace ((b - a) * (nth k (p_ys w) 0 + nth (S k) (p_ys w) 0) / 2 / (polygon_area w + / 10 ^ 10)) with (cdf w (S k) - cdf w k).
  - assert (forall u, rle a (inv_cdf w u) && rlt (inv_cdf w u) b = true <-> knot w k <= inv_cdf w u < knot w (S k)) as EB.
    { intros u. rewrite andb_true_iff, rle_spec, rlt_spec. reflexivity. }
    change (nknots w) with (length (p_xs w)) in *.
    apply (unit_mass (fun u => rle a (inv_cdf w u) && rlt (inv_cdf w u) b)).
    + rewrite <- (cdf_0 w). apply (cdf_mono w OK A); unfold nknots; lia.
    + apply (cdf_mono w OK A); unfold nknots; lia.
    + left. apply (cdf_lt1 w OK A). unfold nknots. lia.
    + intros u Hu1 Hu2. apply EB. apply (inv_piece w OK A); [exact Hk|lra|lra].
    + intros u Hu1 Hu2. destruct (rle a (inv_cdf w u) && rlt (inv_cdf w u) b) eqn:E; [|reflexivity]. exfalso.
      apply EB in E. apply (inv_piece w OK A) in E; [lra|exact Hk|lra].
  - unfold cdf. rewrite (area_polygon w). unfold area. cbn [bsum]. unfold trapezoid, knot, height. fold a b. fold tiny.
    field. lra.
Qed.
Print Assumptions C52_sampling.

(** initialize(): every entry gets valid knots of area one, fitted to the values
    of its feature in its cluster, whatever the clustering; log_likelihood puts
    them in the right place and scores missing values 0. *)
Theorem C52_initialize : forall sc C P alpha m km width data ds, mk_pwl sc C P alpha = Ok m ->
  width = length (query sc) -> length ds = length (query sc) ->
  let assign r := if (1 <? C)%nat then km r else (fun _ => 0%nat) in
  (forall r c f, (r < P)%nat -> (c < C)%nat -> (f < length (query sc))%nat -> fits (nth f ds dom0) (members data (assign r) c f)) ->
  exists m', initialize m km width data ds = Ok m' /\ w_scope m' = sc /\ w_ch m' = C /\ w_rep m' = P /\
    forall x, exists g, p_loglik m' x = Ok g /\ forall r c f, (r < P)%nat -> (c < C)%nat -> (f < length (query sc))%nat ->
      exists w, fit_feature alpha (nth f ds dom0) (members data (assign r) c f) = Ok w /\ pw_ok w /\ polygon_area w = 1 /\
        match x (nth f (query sc) 0%nat) with
        | None => g f c r = Fin 0
        | Some a => exists v, polygon w a v /\ pr (g f c r) = v + / 10 ^ 10
        end.
Proof.
  intros sc C P alpha m km width data ds E -> L assign H. unfold mk_pwl in E. destruct (rlt alpha 0) eqn:EA; [discriminate|].
  apply rlt_false in EA. injection E as <-.
  destruct (initialize_ok (mkPwl sc C P alpha None) km (length (query sc)) data ds EA eq_refl L H) as (t & T1 & T2).
  eexists. split; [exact T1|]. cbn [w_scope w_ch w_rep]. do 3 (split; [reflexivity|]). intros x.
  destruct (loglik_entry (mkPwl sc C P alpha (Some (ds, t))) ds t x eq_refl) as (M & g & G1 & G2). exists g. split; [exact G1|].
  intros r c f Hr Hc Hf. destruct (T2 r c f Hr Hc Hf) as (T3 & T4 & T5). exists (t r c f). split; [exact T3|]. split; [exact T4|]. split; [exact T5|].
  specialize (G2 f c r Hf Hc Hr). cbn [w_scope] in G2. destruct (x (nth f (query sc) 0%nat)) as [a|]; [|exact G2].
  exists (interp_at M (t r c f) a). split; [now apply polygon_interp|]. rewrite G2. apply reported.
Qed.
Print Assumptions C52_initialize.
(** before initialize() (and after reset()) log_likelihood raises; wrong shapes and
    a negative alpha are rejected *)
Theorem C52_rejects : (forall sc C P alpha, alpha < 0 -> mk_pwl sc C P alpha = Err) /\
  (forall sc C P alpha m x, mk_pwl sc C P alpha = Ok m -> p_loglik m x = Err) /\
  (forall m x, p_loglik (reset m) x = Err) /\
  (forall m km width data ds, width <> length (query (w_scope m)) \/ length ds <> length (query (w_scope m)) -> initialize m km width data ds = Err).
Proof.
  split; [|split; [|split]].
  - intros sc C P alpha H. unfold mk_pwl. replace (rlt alpha 0) with true by (symmetry; now apply rlt_spec). reflexivity.
  - intros sc C P alpha m x H. unfold mk_pwl in H. destruct (rlt alpha 0); [discriminate|]. injection H as <-. reflexivity.
  - reflexivity.
  - intros m km width data ds H. unfold initialize. destruct (Nat.eqb_spec width (length (query (w_scope m)))) as [E|E]; [|reflexivity].
    destruct (Nat.eqb_spec (length ds) (length (query (w_scope m)))) as [E'|E']; [|reflexivity]. destruct H; contradiction.
Qed.
Print Assumptions C52_rejects.

(** Continuous features: on equal-width bins covering the data, the knots are the
    bins' midpoints (and the outer edges moved out by 1e-8), and the density at a
    midpoint is proportional to the bin's count over its width plus alpha. *)
Theorem C52_continuous : forall alpha mn mx l, 0 <= alpha -> l <> [] -> exists es w Z,
  fit_feature alpha (PContinuous mn mx) l = Ok w /\ pw_ok w /\ polygon_area w = 1 /\ 0 < Z /\ (2 <= length es)%nat /\ sorted es /\
  (forall x, In x l -> nth 0 es 0 <= x <= nth (length es - 1) es 0) /\
  length (p_xs w) = S (length es) /\ nth 0 (p_xs w) 0 = nth 0 es 0 - / 10 ^ 8 /\ nth (length es) (p_xs w) 0 = nth (length es - 1) es 0 + / 10 ^ 8 /\
  forall b n, (b < length es - 1)%nat -> holds_for (in_bin_of es b) l n ->
    nth (S b) (p_xs w) 0 = (nth b es 0 + nth (S b) es 0) / 2 /\
    polygon w ((nth b es 0 + nth (S b) es 0) / 2) (Z * (INR n / (nth (S b) es 0 - nth b es 0) + alpha)).
Proof.
  intros alpha mn mx l Ha NE. destruct (fit_continuous alpha mn mx l Ha NE) as (es & w & Z & E & F & OK & A & ZP & EX & EH).
  destruct (edges_sorted l es NE E) as (L2 & SO & IN & _). exists es, w, Z. do 7 (split; [assumption|]).
  pose proof (mids_len es) as ML. rewrite EX. cbn [length]. rewrite app_length, ML. cbn [length]. split; [lia|]. split; [reflexivity|]. split.
  { rewrite nth_mid, ML. replace (Nat.eqb (length es) 0) with false by (symmetry; apply Nat.eqb_neq; lia).
    replace (Nat.eqb (length es) (S (length es - 1))) with true by (symmetry; apply Nat.eqb_eq; lia). reflexivity. }
  intros b n Hb Hn. assert (nth (S b) ((nth 0 es 0 - / 10 ^ 8) :: mids es ++ [nth (length es - 1) es 0 + / 10 ^ 8]) 0 = (nth b es 0 + nth (S b) es 0) / 2) as EK.
  { cbn [nth]. rewrite app_nth1 by lia. now apply mids_nth. }
  split; [exact EK|]. rewrite <- EK. rewrite (holds_fun _ _ _ _ Hn (count_holds es b l)). rewrite <- (EH b Hb).
  rewrite <- (interp_knot w OK 0 (S b)) by (unfold nknots; rewrite EX; cbn [length]; rewrite app_length, ML; cbn [length]; lia).
  unfold knot. rewrite EX. now apply polygon_interp.
Qed.
Print Assumptions C52_continuous.

(** Discrete features with unit spaced values: the densities at the values are the
    smoothed relative frequencies, and they sum to one; with the values 0, 1, ...,
    k-1 samples follow them. *)
Theorem C52_discrete : forall alpha vs l, 0 <= alpha -> vs <> [] -> sorted vs -> unit_spaced vs -> l <> [] -> (forall x, In x l -> In x vs) ->
  exists w, fit_feature alpha (PDiscrete vs) l = Ok w /\
    forall v, In v vs -> polygon w v ((INR (occurrences v l) + alpha) / (INR (length l) + INR (length vs) * alpha)).
Proof.
  intros alpha vs l Ha NE SO U NL IN. destruct (mass_discrete vs NE SO alpha l Ha U NL IN) as (w & F & OK & EH). exists w. split; [exact F|].
  intros v Hv. destruct (In_nth vs v 0 Hv) as (k & Hk & <-).
  destruct (fit_discrete vs NE SO alpha l Ha) as (w' & F' & _ & _ & EX & _).
  { right. destruct l as [|x l0]; [congruence|]. exists x. split; [now left|]. apply (in_hull vs NE SO), IN. now left. }
  rewrite F in F'. injection F' as <-. rewrite <- (EH k Hk), <- (value_height vs w 0 k OK EX Hk). now apply polygon_interp.
Qed.
Print Assumptions C52_discrete.
Theorem C52_discrete_total : forall alpha vs l w g, 0 <= alpha -> vs <> [] -> sorted vs -> unit_spaced vs ->
  (l = [] \/ exists x, In x l /\ hd 0 vs <= x <= last vs 0 + 1) -> fit_feature alpha (PDiscrete vs) l = Ok w -> (forall x, polygon w x (g x)) ->
  sums (DFin vs) g 1 /\
  ((forall k, (k < length vs)%nat -> nth k vs 0 = INR k) -> forall D phi u, sums (DFin vs) (fun v => g v * phi v) u -> expects D (p_sample (PDiscrete vs) w) phi u).
Proof.
  intros alpha vs l w g Ha NE SO U H F G. destruct (fit_discrete vs NE SO alpha l Ha H) as (w' & F' & OK & A & EX & _). rewrite F in F'. injection F' as <-.
  assert (forall x, g x = interp_at 0 w x) as EG by (intros x; now apply polygon_fun).
  assert (lsumR (map (interp_at 0 w) vs) = 1) as S1 by now apply values_one.
  split; [cbn [sums]; rewrite <- S1; f_equal; now apply map_ext|].
  intros EV D phi u Hu. cbn [sums] in Hu. rewrite (map_ext _ (fun v => interp_at 0 w v * phi v)) in Hu by (intros; now rewrite EG).
  rewrite (values_sum vs w 0 phi OK EX) in Hu. cbn [p_sample]. rewrite (xs_nknots vs w EX). replace (S (S (length vs)) - 2)%nat with (length vs) by lia.
  assert (bsum (length vs) (fun j => height w (S j)) = 1) as SH.
  { rewrite <- S1. rewrite (map_ext _ (fun v => interp_at 0 w v * (fun _ : R => IZR 1) v)) by (intros; ring). rewrite (values_sum vs w 0 (fun _ => 1) OK EX).
    apply bsum_ext. intros; ring. }
  rewrite SH. destruct (Req_EM_T 1 0); [lra|]. cbn [expects]. exists (fun k => phi (INR k)). split; [reflexivity|]. rewrite <- Hu. apply bsum_ext.
  intros k Hk. rewrite EV by exact Hk. field.
Qed.
Print Assumptions C52_discrete_total.

(** ** Examples *)
(** the data set [0]: one bin of width 1, a triangle *)
Lemma edges_zero : bin_edges [0] None = Ok [-1/2; 1/2].
Proof.
  assert (forall q, quantile q [0] = 0) as Q.
  { intros q. unfold quantile. cbn [rsort fold_right rinsert length].
    assert (forall k, nth k [0] 0 = 0) as N by (intros [|[|k]]; reflexivity). rewrite !N. ring. }
  unfold bin_edges, outer_edges. cbn [lmin lmaxR fold_left fst snd]. destruct (Req_EM_T 0 0) as [_|N]; [|congruence]. cbn [bind].
  assert (auto_width [0] = 0) as W.
  { unfold auto_width, fd_width. rewrite !Q. replace (2 * (0 - 0) * Rpower (INR (length [0])) (- (1 / 3))) with 0 by ring.
    replace (rlt 0 0) with false by (symmetry; apply rlt_false; lra). unfold sturges_width. cbn [lmin lmaxR fold_left]. unfold Rdiv. ring. }
  rewrite W. replace (rlt 0 0) with false by (symmetry; apply rlt_false; lra). unfold linspace. cbn [seq map]. change (INR 1) with 1. change (INR 0) with 0.
  f_equal. f_equal; [lra|]. f_equal. lra.
Qed.
Definition reach : R := 1 / 2 + / 10 ^ 8.
Lemma triangle_fit mn mx : exists w, fit_feature 0 (PContinuous mn mx) [0] = Ok w /\ pw_ok w /\ polygon_area w = 1 /\
  p_xs w = [- reach; 0; reach] /\ height w 1 = / reach.
Proof.
  destruct (fit_continuous 0 mn mx [0] ltac:(lra) ltac:(discriminate)) as (es & w & Z & E & F & OK & A & _ & EX & _).
  rewrite edges_zero in E. injection E as <-. exists w. split; [exact F|]. split; [exact OK|]. split; [exact A|].
  assert (p_xs w = [- reach; 0; reach]) as EX'.
  { rewrite EX. unfold mids. cbn [length Nat.sub seq map nth app]. unfold reach. repeat (f_equal; try lra). }
  split; [exact EX'|]. pose proof (height_first w OK) as H0. pose proof (height_last w OK) as H2. unfold nknots in H2. rewrite EX' in H2. cbn [length Nat.sub] in H2.
  unfold polygon_area in A. rewrite EX' in A. cbn [length Nat.sub bsum nth] in A.
  change (nth 0 (p_ys w) 0) with (height w 0) in A. change (nth 1 (p_ys w) 0) with (height w 1) in A. change (nth 2 (p_ys w) 0) with (height w 2) in A.
  rewrite H0, H2 in A. pose proof eps8. assert (0 < reach) by (unfold reach; lra).
  apply (Rmult_eq_reg_l reach); [|lra]. rewrite Rinv_r by lra. lra.
Qed.
Lemma small8 : / 10 ^ 8 < / 100. Proof. apply Rinv_lt_contravar; [|]; cbn; lra. Qed.
Lemma small10 : tiny < / 100. Proof. unfold tiny. apply Rinv_lt_contravar; [|]; cbn; lra. Qed.

Example C52_nonvacuous : exists w, fit_feature 0 (PContinuous None None) [0] = Ok w /\ pw_ok w /\ polygon_area w = 1 /\
  fits (PContinuous None None) [0] /\ (S (S 0) < length (p_xs w))%nat /\ p_mode w = 0.
Proof.
  destruct (triangle_fit None None) as (w & F & OK & A & EX & EH). exists w. do 3 (split; [assumption|]). split; [left; discriminate|].
  split; [rewrite EX; cbn; lia|]. unfold p_mode, nknots. rewrite EX. cbn [length rargmax Nat.eqb].
  pose proof (height_first w OK) as H0. pose proof (height_last w OK) as H2. unfold nknots in H2. rewrite EX in H2. cbn [length Nat.sub] in H2.
  assert (0 < / reach) as P by (apply Rinv_0_lt_compat; unfold reach; pose proof eps8; lra).
  destruct (Rlt_dec (height w 0) (height w 1)) as [L|L]; [|exfalso; apply L; rewrite H0, EH; exact P].
  destruct (Rlt_dec (height w 1) (height w 2)) as [L2|L2]; [exfalso; rewrite H2, EH in L2; lra|]. unfold knot. now rewrite EX.
Qed.
Example C52_initialize_nonvacuous : exists m, mk_pwl (mkScope [4; 7]%nat []) 2 1 (1/2) = Ok m /\
  forall r c f, (r < 1)%nat -> (c < 2)%nat -> (f < 2)%nat ->
    fits (nth f [PContinuous None None; PDiscrete [0; 1]] dom0) (members [[0; 1]; [5; 0]; [3; 1]] (fun i => i mod 2) c f).
Proof.
  eexists. split; [unfold mk_pwl; replace (rlt (1/2) 0) with false by (symmetry; apply rlt_false; lra); reflexivity|].
  intros r c f Hr Hc Hf. destruct f as [|[|f]]; [| |lia]; cbn [nth].
  - left. destruct c as [|[|c]]; [| |lia]; cbn; discriminate.
  - split; [discriminate|]. split; [intros [|k] Hk; cbn in *; [lra|lia]|]. right.
    destruct c as [|[|c]]; [| |lia].
    + exists 1. split; [cbn; now left|]. cbn. lra.
    + exists 0. split; [cbn; now left|]. cbn. lra.
Qed.
Example C52_discrete_nonvacuous : sorted [0; 1; 2] /\ unit_spaced [0; 1; 2] /\ (forall k, (k < 3)%nat -> nth k [0; 1; 2] 0 = INR k) /\
  (forall x, In x [2; 0; 2] -> In x [0; 1; 2]) /\ occurrences 2 [2; 0; 2] = 2%nat.
Proof.
  split; [intros [|[|[|k]]] Hk; cbn in *; try lia; lra|]. split; [intros [|[|[|k]]] Hk; cbn in *; try lia; lra|].
  split; [intros [|[|[|k]]] Hk; cbn in *; try lia; lra|]. split; [intros x [<-|[<-|[<-|[]]]]; cbn; auto|].
  unfold occurrences. cbn [filter]. repeat (destruct (Req_EM_T _ _); try lra). reflexivity.
Qed.

(** C136 (refuted): "the likelihoods a PiecewiseLinear leaf reports integrate to
    one": every one of them is increased by 1e-10, so they integrate to nothing. *)
Theorem C136_reported_refuted : forall w M, pw_ok w -> ~ exists u, sums DReal (fun x => pr (p_log_prob M w x)) u.
Proof.
  intros w M OK (u & H). pose proof (interp_sums w OK M) as K.
  assert (sums DReal (fun x => (fun _ => tiny) x) (u + -1 * polygon_area w)) as C.
  { apply (sums_ext DReal (fun x => pr (p_log_prob M w x) + -1 * interp_at M w x)); [intros x; rewrite reported; ring|].
    apply sums_plus; [exact H|]. now apply sums_scal. }
  cbn [sums] in C. set (c := u + -1 * polygon_area w) in *. pose proof tiny_pos as TP.
  (* the integral of a positive constant over ever larger intervals *)
  assert (locally c (fun y => Rabs (y - c) < 1)) as LB.
  { exists (mkposreal 1 Rlt_0_1). intros y Hy. exact Hy. }
  destruct (C _ LB) as [Q R0 HQ HR HP]. destruct HQ as (q & HQ). destruct HR as (r & HR).
  set (x1 := Rmin q r - 1). set (y1 := Rmax q r + 1). set (y2 := y1 + 2 / tiny).
  assert (0 < 2 / tiny) as P2 by (apply Rmult_lt_0_compat; [lra|now apply Rinv_0_lt_compat]).
  assert (x1 < q) as X1 by (unfold x1; pose proof (Rmin_l q r); lra). assert (r < y1) as Y1 by (unfold y1; pose proof (Rmax_r q r); lra).
  assert (r < y2) as Y2 by (unfold y2; lra).
  destruct (HP x1 y1 (HQ _ X1) (HR _ Y1)) as (I1 & J1 & B1). destruct (HP x1 y2 (HQ _ X1) (HR _ Y2)) as (I2 & J2 & B2).
  cbn [fst snd] in J1, J2.
  assert (I1 = (y1 - x1) * tiny) as E1.
  { apply (is_RInt_unique (V := R_CompleteNormedModule)) in J1. rewrite <- J1. apply (RInt_const (V := R_CompleteNormedModule)). }
  assert (I2 = (y2 - x1) * tiny) as E2'.
  { apply (is_RInt_unique (V := R_CompleteNormedModule)) in J2. rewrite <- J2. apply (RInt_const (V := R_CompleteNormedModule)). }
  assert (I2 - I1 = 2) as E3 by (rewrite E1, E2'; unfold y2; field; lra).
  apply Rabs_def2 in B1. apply Rabs_def2 in B2. lra.
Qed.
Print Assumptions C136_reported_refuted.

(** C137 (refuted): "samples of a continuous feature follow the density": within a
    piece they are uniform although the density is sloped.  For the leaf fitted to
    the single value 0, a quarter of the samples, but an eighth of the density's
    mass, lies below the middle of the first piece. *)
Theorem C137_sampling_refuted : exists l w t p q, fit_feature 0 (PContinuous None None) l = Ok w /\ pw_ok w /\ polygon_area w = 1 /\
  expects (fun _ => DReal) (p_sample (PContinuous None None) w) (fun x => if rle x t then 1 else 0) p /\
  (forall g, (forall x, polygon w x (g x)) -> sums DReal (fun x => g x * (if rle x t then 1 else 0)) q) /\ q + 1 / 10 < p.
Proof.
  destruct (triangle_fit None None) as (w & F & OK & A & EX & EH).
  assert (0 < polygon_area w) as AP by lra. pose proof eps8 as P8. pose proof small8 as S8. pose proof small10 as S10. pose proof tiny_pos as TP.
  assert (0 < reach) as RP by (unfold reach; lra).
  assert (nknots w = 3%nat) as N3 by (unfold nknots; now rewrite EX).
  assert (knot w 0 = - reach /\ knot w 1 = 0 /\ knot w 2 = reach) as (K0 & K1 & K2) by (unfold knot; rewrite EX; repeat split).
  pose proof (height_first w OK) as H0. pose proof (height_last w OK) as H2. rewrite N3 in H2. cbn [Nat.sub] in H2.
  assert (cdf w 1 = 1 / 2 / (1 + tiny)) as C1.
  { unfold cdf. rewrite (area_polygon w), A. unfold area. cbn [bsum]. unfold trapezoid. rewrite H0, EH, K0, K1. field. split; lra. }
  assert (9 / 20 < cdf w 1 <= 1 / 2) as CB.
  { rewrite C1. split; apply (Rmult_lt_reg_r (1 + tiny)) || apply (Rmult_le_reg_r (1 + tiny)); try lra; unfold Rdiv; rewrite !Rmult_assoc, Rinv_l by lra; nra. }
  set (s := (cdf w 1 + / 10 ^ 8) / 2). set (t := - reach / 2).
  exists [0], w, t, s, (1 / 8). split; [exact F|]. split; [exact OK|]. split; [exact A|]. split; [|split].
  - cbn [p_sample expects]. exists (fun u => if rle (inv_cdf w u) t then 1 else 0). split; [reflexivity|].
    assert (forall u, 0 <= u -> (inv_cdf w u <= t <-> u <= s)) as KEY.
    { intros u Hu. destruct (Rlt_dec u (cdf w 1)) as [L|L].
      - rewrite (inv_formula w OK AP 0 u) by (rewrite ?N3, ?cdf_0; lia || lra). rewrite K0, K1, (cdf_0 w). unfold t, s.
        set (d := cdf w 1 - 0 + / 10 ^ 8). assert (0 < d) as DP by (unfold d; lra).
        replace (- reach + (0 - - reach) / d * (u - 0)) with (reach * (u / d) - reach) by (field; lra). split; intros H.
        + assert (reach * (u / d) <= reach * (1 / 2)) as X by lra. apply Rmult_le_reg_l in X; [|exact RP].
          apply (Rmult_le_compat_r d) in X; [|lra]. unfold Rdiv in X. rewrite Rmult_assoc, Rinv_l in X by lra. unfold d in X. lra.
        + assert (u / d <= 1 / 2) as X; [|apply (Rmult_le_compat_l reach) in X; lra].
          apply (Rmult_le_reg_r d); [exact DP|]. unfold Rdiv. rewrite Rmult_assoc, Rinv_l by lra. unfold d. lra.
      - assert (0 <= inv_cdf w u) as NN.
        { destruct (Rle_dec (cdf w 2) u) as [L2|L2].
          - pose proof (inv_last w OK AP u) as IL. rewrite N3 in IL. cbn [Nat.sub] in IL. rewrite K1 in IL. now apply IL.
          - destruct (inv_in w OK AP 1 u) as [X _]; [rewrite N3; lia|lra|lra|]. now rewrite K1 in X. }
        unfold t, s. split; intros H; lra. }
    replace s with (s - 0) by ring. apply (unit_mass (fun u => rle (inv_cdf w u) t)); unfold s in *; try lra.
    + intros u Hu1 Hu2. apply rle_spec. apply KEY; lra.
    + intros u Hu1 Hu2. apply rle_false. apply Rnot_le_lt. intros X. apply KEY in X; lra.
  - intros g HG. apply (sums_compact _ (- reach) t).
    + unfold t. lra.
    + intros x [Hx|Hx].
      * rewrite (polygon_fun w x (g x) 0 OK (HG x)). rewrite (interp_before w OK) by lra. ring.
      * replace (rle x t) with false by (symmetry; apply rle_false; exact Hx). ring.
    + apply (is_RInt_ext (line w 0)).
      * intros x Hx. unfold t in Hx. rewrite Rmin_left, Rmax_right in Hx by lra. replace (rle x t) with true by (symmetry; apply rle_spec; unfold t; lra).
        rewrite (polygon_fun w x (g x) 0 OK (HG x)). rewrite (interp_line w OK 0 0 x) by (rewrite ?N3, ?K0, ?K1; lia || lra). symmetry. apply Rmult_1_r.
      * replace (1 / 8) with ((t - - reach) * (line w 0 (- reach) + line w 0 t) / 2); [apply (line_RInt w OK); rewrite N3; lia|].
        unfold line. rewrite H0, EH, K0, K1. unfold t. field. lra.
  - unfold s. lra.
Qed.
Print Assumptions C137_sampling_refuted.

(** C138 (refuted): "samples of a discrete feature lie in its domain": the index of
    the value is returned instead of the value. *)
Theorem C138_index_refuted : exists vs l w x, vs <> [] /\ sorted vs /\ unit_spaced vs /\ (forall y, In y l -> In y vs) /\ fit_feature 0 (PDiscrete vs) l = Ok w /\
  outcome (p_sample (PDiscrete vs) w) x /\ ~ In x vs /\ polygon w x 0.
Proof.
  set (vs := [1; 2]). assert (sorted vs) as SO by (intros [|[|k]] Hk; cbn in *; try lia; lra).
  assert (unit_spaced vs) as U by (intros [|[|k]] Hk; cbn in *; try lia; lra).
  assert (vs <> []) as NE by discriminate.
  destruct (mass_discrete vs NE SO 0 vs ltac:(lra) U NE (fun x H => H)) as (w & F & OK & EH).
  destruct (fit_discrete vs NE SO 0 vs ltac:(lra)) as (w' & F' & _ & _ & EX & _).
  { right. exists 1. split; [now left|cbn; lra]. }
  rewrite F in F'. injection F' as <-.
  assert (height w 1 = 1 / 2 /\ height w 2 = 1 / 2) as [H1 H2].
  { rewrite (EH 0%nat), (EH 1%nat) by (cbn; lia). unfold occurrences, vs. cbn [filter nth length].
    repeat (destruct (Req_EM_T _ _); try lra); cbn; lra. }
  exists vs, vs, w, 0. do 3 (split; [assumption|]). split; [auto|]. split; [exact F|]. split; [|split].
  - unfold p_sample. rewrite (xs_nknots vs w EX). cbn [length vs Nat.sub bsum]. rewrite H1, H2. destruct (Req_EM_T _ _) as [X|_]; [exfalso; lra|].
    apply (o_choose _ _ _ 0%nat); [lia|rewrite H1; lra|]. apply (o_ret 0).
  - cbn. lra.
  - right. split; [left; rewrite EX; cbn; lra|reflexivity].
Qed.
Print Assumptions C138_index_refuted.

(** C139 (refuted): "the likelihoods of a discrete feature's values sum to one":
    the polygon between values further apart takes mass from them. *)
Theorem C139_discrete_refuted : exists vs, vs <> [] /\ sorted vs /\
  forall alpha l w g, 0 <= alpha -> (forall x, In x l -> In x vs) -> fit_feature alpha (PDiscrete vs) l = Ok w -> (forall x, polygon w x (g x)) ->
    sums (DFin vs) g (2 / 11).
Proof.
  set (vs := [0; 10]). assert (sorted vs) as SO by (intros [|[|k]] Hk; cbn in *; try lia; lra). assert (vs <> []) as NE by discriminate.
  exists vs. split; [exact NE|]. split; [exact SO|]. intros alpha l w g Ha IN F G.
  destruct (fit_discrete vs NE SO alpha l Ha) as (w' & F' & OK & A & EX & _).
  { destruct l as [|x l]; [now left|right]. exists x. split; [now left|]. destruct (IN x (or_introl eq_refl)) as [<-|[<-|[]]]; cbn; lra. }
  rewrite F in F'. injection F' as <-. cbn [sums].
  rewrite (map_ext _ (fun v => interp_at 0 w v * (fun _ : R => IZR 1) v)) by (intros; rewrite (polygon_fun w a (g a) 0 OK (G a)); ring).
  rewrite (values_sum vs w 0 (fun _ => 1) OK EX). unfold vs. cbn [length bsum nth].
  pose proof (height_first w OK) as H0. pose proof (height_last w OK) as H3. rewrite (xs_nknots vs w EX) in H3. cbn [vs length Nat.sub] in H3.
  unfold polygon_area in A. rewrite EX in A. cbn [vs length app Nat.sub bsum nth hd last] in A.
  change (nth 0 (p_ys w) 0) with (height w 0) in A. change (nth 1 (p_ys w) 0) with (height w 1) in A. change (nth 2 (p_ys w) 0) with (height w 2) in A.
  change (nth 3 (p_ys w) 0) with (height w 3) in A. rewrite H0, H3 in A. lra.
Qed.
Print Assumptions C139_discrete_refuted.

(** C140 (refuted): "log_likelihood returns a (batch, features, channels,
    repetitions) tensor like every leaf": it has five dimensions. *)
Theorem C140_shape_refuted : forall m N, ll_dims m N <> leaf_ll_dims N (length (query (w_scope m))) (w_ch m) (w_rep m).
Proof. intros m N H. apply (f_equal (@length nat)) in H. discriminate. Qed.
Print Assumptions C140_shape_refuted.

(** C141 (refuted): "a cluster without data gets a density on the feature's domain":
    an upper bound of 0 counts as missing and is replaced by 1. *)
Theorem C141_empty_refuted : exists mn mx w x v, mn < mx /\ fit_feature 0 (PContinuous (Some mn) (Some mx)) [] = Ok w /\
  mx + / 4 < x /\ polygon w x v /\ 0 < v.
Proof.
  assert (py_or (Some (-1)) 0 = -1) as E1 by (unfold py_or; destruct (Req_EM_T (-1) 0); [lra|reflexivity]).
  assert (py_or (Some 0) 1 = 1) as E2 by (unfold py_or; destruct (Req_EM_T 0 0); [reflexivity|lra]).
  destruct (fit_continuous_empty 0 (Some (-1)) (Some 0) ltac:(lra)) as (w & F & OK & A & EX); [rewrite E1, E2; lra|]. rewrite E1, E2 in EX.
  (* the heights at the ten midpoints are equal *)
  assert (exists Z, 0 < Z /\ forall k, (k < 10)%nat -> height w (S k) = 1 / 10 / Z) as (Z & ZP & EH).
  { unfold fit_feature in F. rewrite E1, E2 in F. unfold smooth in F. replace (rlt 0 0) with false in F by (symmetry; apply rlt_false; lra).
    set (es := linspace (-1) 1 10) in *. pose proof (linspace_length (-1) 1 10) as LE.
    destruct (linspace_spec (-1) 1 10 ltac:(lia) ltac:(lra)) as (S1 & S2 & S3). fold es in LE, S1, S2, S3.
    assert (sorted es) as SO by (intros k Hk; destruct (S3 k ltac:(lia)); lra).
    destruct (mids_frame es ltac:(lia) SO) as (F1 & F2 & F3 & F4). set (ds := map (fun _ : nat => 1 / INR 10) (seq 0 10)) in *.
    assert (forall k, (k < 10)%nat -> nth k ds 0 = 1 / INR 10) as ND by (intros k Hk; do 10 (destruct k as [|k]; [reflexivity|]); lia).
    assert (0 < 1 / INR 10) as P10 by (apply Rmult_lt_0_compat; [lra|apply Rinv_0_lt_compat, lt_0_INR; lia]).
    destruct (framed_fit (nth 0 es 0 - / 10 ^ 8) (mids es) (nth (length es - 1) es 0 + / 10 ^ 8) ds F1 F2 F3 F4) as (_ & _ & _ & Z & Z1 & _ & Z2).
    - rewrite mids_len, LE. reflexivity.
    - intros k Hk. change (length ds) with 10%nat in Hk. rewrite ND by exact Hk. lra.
    - exists 0%nat. split; [cbn; lia|]. rewrite ND by lia. exact P10.
    - exists Z. split; [exact Z1|]. change (Ok (normalise ((nth 0 es 0 - / 10 ^ 8) :: mids es ++ [nth (length es - 1) es 0 + / 10 ^ 8]) (0 :: ds ++ [0])) = Ok w) in F.
      apply (f_equal (fun o => match o with Ok a => a | Err => w end)) in F. change (normalise ((nth 0 es 0 - / 10 ^ 8) :: mids es ++ [nth (length es - 1) es 0 + / 10 ^ 8]) (0 :: ds ++ [0]) = w) in F.
      intros k Hk. rewrite <- F. rewrite Z2 by exact Hk. rewrite ND by exact Hk. replace (INR 10) with 10 by (cbn; lra). reflexivity. }
  assert (nth 8 (p_xs w) 0 = 1 / 2) as K8.
  { rewrite EX. rewrite nth_mid. rewrite mids_len, linspace_length. cbn [Nat.eqb Nat.sub]. rewrite mids_nth by (rewrite linspace_length; lia).
    rewrite !linspace_nth by lia. cbn [INR]. lra. }
  exists (-1), 0, w, (1 / 2), (1 / 10 / Z). split; [lra|]. split; [exact F|]. split; [lra|]. split.
  - rewrite <- (EH 7%nat) by lia. rewrite <- K8. rewrite <- (interp_knot w OK 0 8); [now apply polygon_interp|].
    unfold nknots. rewrite EX. cbn [length]. rewrite app_length, mids_len, linspace_length. cbn. lia.
  - apply Rmult_lt_0_compat; [lra|now apply Rinv_0_lt_compat].
Qed.
Print Assumptions C141_empty_refuted.

(** C142 (refuted): "a PiecewiseLinear leaf can be marginalised structurally": it
    raises whenever a variable is to be kept. *)
Theorem C142_marginalize_refuted : forall m rvs, (exists q, In q (query (w_scope m)) /\ ~ In q rvs) -> p_marginalize m rvs = Err.
Proof.
  intros m rvs (q & H1 & H2). unfold p_marginalize. set (l := filter _ _). assert (In q l) as I.
  { apply filter_In. split; [exact H1|]. apply negb_true_iff. destruct (existsb (Nat.eqb q) rvs) eqn:E; [|reflexivity].
    apply existsb_exists in E. destruct E as (y & Y1 & Y2). apply Nat.eqb_eq in Y2. subst y. contradiction. }
  destruct l; [destruct I|reflexivity].
Qed.
Print Assumptions C142_marginalize_refuted.
