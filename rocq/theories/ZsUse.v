(** Initial weights, sampling and marginalisation of SOSModel components. *)
From Coq Require Import List Arith ZArith Bool Reals Lia Lra Sorted Permutation.
From Verif Require Import Base ScopeModel ScopeProofs CircuitModel CircuitSpec CircuitBasics CircuitEval CircuitProps Integral MargProofs PruneTop LearnProofs
  LeafModel LeafSpec LeafProofs LeafTop SignedModel SignedSpec SignedProofs SocsExamples SocsProofs SocsTop TripleModel TripleSpec ExpTop ZsModel ZsSpec ZsTree ZsProofs ZsCompat ZsTop ZsComp ZsMain ZsRes.
Import ListNotations.
Local Open Scope R_scope.

Lemma catp_nonneg vs : Forall (fun v : nat * T3 R => forall f c r, 0 <= snd v f c r) vs -> forall f c r, 0 <= catp 0 false vs f c r.
Proof.
  intros F f c r. unfold catp. generalize f at 1. induction F as [|v vs H F IH]; intros f0; cbn [pick]; [lra|].
  destruct (Nat.ltb f0 (fst v)); [apply H|apply IH].
Qed.

Lemma leaf_nonneg g d sc l x f c r : (forall t, 0 <= t < 1 -> 0 <= rand_uniform (g_vars g) t) -> unit_draws d -> leaf_of g d sc l -> 0 <= leaf_fun l x f c r.
Proof.
  intros HR (_ & _ & UD) L. unfold leaf_fun. destruct (x _) as [a|]; [|lra]. destruct l as [l|s0 ch0 rep0 K w].
  - apply pr_nonneg.
  - unfold leaf_of in L. assert (exists p, w = fun f c r k => rand_uniform (g_vars g) (d_state d p f c r k)) as (p & ->).
    { destruct (g_layer g); try (destruct (g_signed g && g_signed_in g)%bool; [destruct L as (_ & p & L); injection L as _ _ _ _ ->; eauto|destruct L as (lg & L); discriminate]).
      destruct L as (? & ? & L). discriminate. }
    destruct (state_of K a); [|lra]. apply HR. apply UD.
Qed.

Lemma tree_nonneg g d t m : (forall t, 0 <= t < 1 -> 0 <= rand_uniform (g_vars g) t) -> unit_draws d -> of_tree g d t m -> forall x f c r, 0 <= fun_of m x f c r.
Proof.
  intros HR UD. revert t m. apply (of_tree_ind' g d (fun _ m => forall x f c r, 0 <= fun_of m x f c r)).
  - intros sc l L _ x f c r. cbn [fun_of]. eapply leaf_nonneg; eauto.
  - intros sc ch cs sc' m p _ IH _ _ _ _ _ FM x f c r.
    assert (P : forall f c r, 0 <= fun_of (SProduct (SCat false sc' cs)) x f c r).
    { intros f0 c0 r0. cbn [fun_of]. apply bprod_nonneg. intros h _. cbn [fun_of]. apply catp_nonneg. apply Forall_forall. intros v Hv. apply in_map_iff in Hv. destruct Hv as (m0 & <- & Hm).
      cbn [snd]. clear - IH Hm. induction IH as [|t0 m1 ch cs H IH IHH]; [destruct Hm|]. destruct Hm as [->|Hm]; [apply H|auto]. }
    destruct (g_signed g); [subst m|destruct FM as (lg & ->)]; cbn [fun_of]; apply bsum_nonneg; intros i Hi; apply Rmult_le_pos; try exact (P f i r).
    + apply HR. apply UD.
    + left. apply softmax_pos. lia.
Qed.
Lemma comp_nonneg g d t force c : (forall t, 0 <= t < 1 -> 0 <= rand_uniform (g_vars g) t) -> unit_draws d -> comp_of g d t force c -> forall x f c' r, 0 <= fun_of c x f c' r.
Proof.
  intros HR UD C x f c' r. destruct (comp_parts _ _ _ _ _ C) as (root & O & _ & D). pose proof (tree_nonneg g d t root HR UD O) as N.
  assert (S : forall f c r, 0 <= fun_of (scalar_in root) x f c r).
  { intros. unfold scalar_in. destruct (Nat.eqb _ _); [apply N|]. cbn [fun_of]. apply bprod_nonneg. intros. apply N. }
  destruct D as [->|[(_ & ->)|(_ & lg & ->)]]; [apply S| |]; cbn [fun_of]; apply bsum_nonneg; intros i Hi; apply Rmult_le_pos; try exact (S f i r).
  - apply HR. apply UD.
  - left. apply softmax_pos. lia.
Qed.

Lemma rand_range n t : 0 <= t < 1 -> if Nat.leb n 2 then -2 <= rand_uniform n t < 2 else 0 <= rand_uniform n t < 1.
Proof. intros H. unfold rand_uniform, init_low, init_high. destruct (Nat.leb n 2); lra. Qed.

(** every multi-channel SignedSum blocks the proposal *)
Lemma tree_proposal g d t m : g_signed g = true -> (2 <= g_sum g)%nat -> of_tree g d t m -> tkids t <> [] -> forall eps, proposal eps m = Err.
Proof.
  intros SG H2 O HT eps. destruct O as [sc l _ _|sc ch cs sc' m p _ _ _ _ _ _ FM]; [now cbn in HT|]. rewrite SG in FM. subst m. cbn [proposal].
  destruct (Nat.eqb_spec (g_sum g) 1); [lia|reflexivity].
Qed.
Lemma tree_signed g d t m : g_signed g = true -> of_tree g d t m -> tkids t <> [] -> exists c co rr w, m = SSigned c co rr w.
Proof.
  intros SG O HT. destruct O as [sc l _ _|sc ch cs sc' m p _ _ _ _ _ _ FM]; [now cbn in HT|]. rewrite SG in FM. subst m. eauto.
Qed.
Lemma tree_root g d t m : of_tree g d t m -> tkids t <> [] -> sfeat m = 1%nat.
Proof. intros O HT. pose proof (of_tree_iok _ _ _ _ O) as I. rewrite (io_feat _ _ _ I). destruct (tkids t); congruence. Qed.

Lemma comp_proposal g d t force c : g_signed g = true -> (2 <= g_sum g)%nat -> tkids t <> [] -> comp_of g d t force c -> proposal_of c = Err.
Proof.
  intros SG H2 HT C. destruct C as (root & O & _ & F). pose proof (tree_proposal g d t root SG H2 O HT) as P. pose proof (tree_root g d t root O HT) as FE.
  assert (ES : scalar_in root = root) by (unfold scalar_in; now rewrite FE). rewrite ES in F.
  unfold has_top in F. destruct (tkids t) as [|? ?]; [congruence|]. destruct (Nat.eqb_spec (g_sum g) 1); [lia|]. cbn [negb orb] in F.
  unfold make_sum in F. rewrite SG in F. unfold make_signed_sum in F. injection F as <-. unfold proposal_of. cbn [contains_signed proposal Nat.eqb negb]. now rewrite P.
Qed.
Lemma comp_signed g d t force c : g_signed g = true -> tkids t <> [] -> comp_of g d t force c -> exists k co rr w, c = SSigned k co rr w.
Proof.
  intros SG HT C. destruct C as (root & O & _ & F). destruct (tree_signed g d t root SG O HT) as (k & co & rr & w & ->).
  pose proof (tree_root g d t _ O HT) as FE. destruct (has_top g t force).
  - unfold make_sum in F. rewrite SG in F. unfold make_signed_sum in F. injection F as <-. eauto.
  - subst c. unfold scalar_in. rewrite FE. cbn [Nat.eqb]. eauto.
Qed.

(** trees over more than one variable (pixel) have inner nodes *)
Lemma inner_node a s i t : (0 < a_vars a)%nat -> good_image (a_vars a) (a_img a) -> good_seeds s -> tree_for a s i t ->
  match a_graph a with Qt | Qt2 | Qt4 => exists c h w, a_img a = Some (c, h, w) /\ (2 <= h * w)%nat | _ => (2 <= a_vars a)%nat end -> tkids t <> [].
Proof.
  intros Hn HI (SH & _) T HM E. destruct (build_tree_ok _ _ _ _ t Hn HI (SH _) T) as (_ & P & L). destruct t as [sc ch]. cbn [tkids] in E. subst ch. cbn [tscope tree_leaves] in *.
  apply Permutation_length in P. rewrite seq_length in P.
  assert (A : Forall (fun l : list nat => length l = 1%nat) [sc] -> ~ (2 <= a_vars a)%nat) by (intros F; apply Forall_inv in F; lia).
  assert (B : (exists c h w, a_img a = Some (c, h, w) /\ Forall (fun l => exists y x, (y < h)%nat /\ (x < w)%nat /\ l = pixel c h w y x) [sc]) ->
    ~ exists c h w, a_img a = Some (c, h, w) /\ (2 <= h * w)%nat).
  { intros (c & h & w & E & F) (c' & h' & w' & E' & Q). rewrite E in E'. injection E' as <- <- <-. apply Forall_inv in F. destruct F as (y & x & _ & _ & ->).
    unfold pixel in P. rewrite map_length, seq_length in P. rewrite E in HI. destruct HI as (Hc & _ & _ & EN).
    assert (c * 2 <= c * (h * w))%nat by (apply Nat.mul_le_mono_l; exact Q). lia. }
  unfold tree_for in T. destruct (a_graph a); try (now apply A in L); try (now apply B in L).
Qed.

Lemma no_sampling cs xs burn steps : cs <> [] -> (forall c, In c cs -> proposal_of c = Err) -> socs_sample xs cs burn steps = Err.
Proof.
  intros Hne H. unfold socs_sample. destruct (forallb _ _); [|reflexivity]. destruct (mapR log_self_ip cs) as [zs|]; [|reflexivity]. cbn [bind].
  destruct (Nat.eqb steps 0); [reflexivity|]. destruct cs as [|c cs]; [congruence|]. cbn [mapR]. unfold tables at 1. rewrite (H c (or_introl eq_refl)). reflexivity.
Qed.
Lemma no_marginal cs S prune : cs <> [] -> (forall c, In c cs -> exists k co rr w, c = SSigned k co rr w) -> socs_marginalize S prune cs = Err.
Proof.
  intros Hne H. destruct cs as [|c cs]; [congruence|]. destruct (H c (or_introl eq_refl)) as (k & co & rr & w & ->). reflexivity.
Qed.
