(** Automatic bin edges (spflow/utils/histogram.py). *)
From Coq Require Import List Arith ZArith Bool Reals Lra Lia.
From Verif Require Import Base ScopeModel CircuitModel LeafModel LeafProofs LeafTop MleModel IvProofs HistModel HistSpec HistProofs HistTop HistFit.
Import ListNotations.
Local Open Scope R_scope.

Lemma fold_min_le r a : fold_left Rmin r a <= a /\ forall x, In x r -> fold_left Rmin r a <= x.
Proof.
  revert a. induction r as [|b r IH]; intros a; cbn; [split; [lra|tauto]|]. destruct (IH (Rmin a b)) as [H1 H2].
  pose proof (Rmin_l a b). pose proof (Rmin_r a b). split; [lra|]. intros x [<-|Hx]; [lra|auto].
Qed.
Lemma fold_max_ge r a : a <= fold_left Rmax r a /\ forall x, In x r -> x <= fold_left Rmax r a.
Proof.
  revert a. induction r as [|b r IH]; intros a; cbn; [split; [lra|tauto]|]. destruct (IH (Rmax a b)) as [H1 H2].
  pose proof (Rmax_l a b). pose proof (Rmax_r a b). split; [lra|]. intros x [<-|Hx]; [lra|auto].
Qed.
Lemma fold_max_in r a : In (fold_left Rmax r a) (a :: r).
Proof.
  revert a. induction r as [|b r IH]; intros a; cbn [fold_left]; [now left|]. destruct (IH (Rmax a b)) as [E|E].
  - rewrite <- E. unfold Rmax. destruct (Rle_dec a b); cbn; auto.
  - right. now right.
Qed.
Lemma fold_min_in r a : In (fold_left Rmin r a) (a :: r).
Proof.
  revert a. induction r as [|b r IH]; intros a; cbn [fold_left]; [now left|]. destruct (IH (Rmin a b)) as [E|E].
  - rewrite <- E. unfold Rmin. destruct (Rle_dec a b); cbn; auto.
  - right. now right.
Qed.
Lemma lmin_le l x : In x l -> lmin l <= x.
Proof. destruct l as [|a r]; [intros []|]. destruct (fold_min_le r a) as [H1 H2]. intros [<-|H]; cbn; auto. Qed.
Lemma lmax_ge l x : In x l -> x <= lmaxR l.
Proof. destruct l as [|a r]; [intros []|]. destruct (fold_max_ge r a) as [H1 H2]. intros [<-|H]; cbn; auto. Qed.
Lemma lmax_in l : l <> [] -> In (lmaxR l) l.
Proof. destruct l as [|a r]; [congruence|]. intros _. apply fold_max_in. Qed.
Lemma lmin_in l : l <> [] -> In (lmin l) l.
Proof. destruct l as [|a r]; [congruence|]. intros _. apply fold_min_in. Qed.

Lemma linspace_length a b n : length (linspace a b n) = S n.
Proof. unfold linspace. now rewrite map_length, seq_length. Qed.
Lemma linspace_nth a b n k : (k <= n)%nat -> nth k (linspace a b n) 0 = a + INR k * ((b - a) / INR n).
Proof.
  intros Hk. unfold linspace. set (g := fun k => a + INR k * ((b - a) / INR n)).
  rewrite (nth_indep _ 0 (g 0%nat)) by (rewrite map_length, seq_length; lia).
  rewrite map_nth, seq_nth by lia. reflexivity.
Qed.
Lemma linspace_spec a b n : (1 <= n)%nat -> a < b ->
  nth 0 (linspace a b n) 0 = a /\ nth n (linspace a b n) 0 = b /\
  forall k, (k < n)%nat -> nth (S k) (linspace a b n) 0 - nth k (linspace a b n) 0 = (b - a) / INR n /\ 0 < (b - a) / INR n.
Proof.
  intros Hn H. assert (0 < INR n) as P by (apply lt_0_INR; lia). split; [|split].
  - rewrite linspace_nth by lia. cbn. lra.
  - rewrite linspace_nth by lia. field. lra.
  - intros k Hk. rewrite !linspace_nth by lia. rewrite S_INR. split; [field; lra|]. apply Rmult_lt_0_compat; [lra|now apply Rinv_0_lt_compat].
Qed.

Lemma outer_spec l rb a b : outer_edges l rb = Ok (a, b) -> a < b /\
  (rb = None -> forall x, In x l -> a <= x <= b) /\
  (rb = None -> (exists x y, In x l /\ In y l /\ x <> y) -> a = lmin l /\ b = lmaxR l).
Proof.
  unfold outer_edges. destruct rb as [[u v]|].
  - destruct (rlt v u) eqn:E; [discriminate|]. apply rlt_false in E. cbn [fst snd]. destruct (Req_EM_T u v); intros [= <- <-].
    + subst. split; [lra|split; discriminate].
    + split; [lra|split; discriminate].
  - destruct l as [|x0 l0]; [intros [= <- <-]; split; [lra|split; [intros _ x []|intros _ (x & y & [] & _)]]|].
    set (l := x0 :: l0). assert (In x0 l) as I0 by now left. pose proof (lmin_le l) as A1. pose proof (lmax_ge l) as A2.
    clearbody l. remember (lmin l) as mn. remember (lmaxR l) as mx. pose proof (A1 x0 I0). pose proof (A2 x0 I0).
    cbn [fst snd]. destruct (Req_EM_T mn mx) as [E|E]; intros Q; inversion Q; subst a b; clear Q.
    + split; [lra|]. split.
      * intros _ x Hx. pose proof (A1 x Hx). pose proof (A2 x Hx). lra.
      * intros _ (x & y & Hx & Hy & N). exfalso. apply N.
        pose proof (A1 x Hx). pose proof (A2 x Hx). pose proof (A1 y Hy). pose proof (A2 y Hy). lra.
    + split; [lra|]. split.
      * intros _ x Hx. split; auto.
      * auto.
Qed.

Lemma ceil_pos x : 0 < x -> (1 <= Z.to_nat (- Int_part (- x)))%nat.
Proof.
  intros H. destruct (base_Int_part (- x)) as [B1 B2]. assert (Int_part (- x) < 0)%Z by (apply lt_IZR; cbn; lra). lia.
Qed.

Lemma bin_edges_spec l rb es : bin_edges l rb = Ok es -> exists a b n, (1 <= n)%nat /\ a < b /\ outer_edges l rb = Ok (a, b) /\
  length es = S n /\ nth 0 es 0 = a /\ nth n es 0 = b /\ forall k, (k < n)%nat -> nth (S k) es 0 - nth k es 0 = (b - a) / INR n.
Proof.
  unfold bin_edges. destruct (outer_edges l rb) as [[a b]|] eqn:E; [|discriminate]. cbn [bind].
  destruct (outer_spec l rb a b E) as [Hab _].
  match goal with |- Ok (linspace a b ?N) = _ -> _ => set (n := N) end.
  assert (1 <= n)%nat as Hn.
  { unfold n. destruct (match rb with Some _ => _ | None => l end) as [|x0 r0]; [lia|].
    destruct (rlt 0 _) eqn:W; [|lia]. apply rlt_spec in W. apply ceil_pos. apply Rmult_lt_0_compat; [lra|now apply Rinv_0_lt_compat]. }
  intros [= <-]. destruct (linspace_spec a b n Hn Hab) as (S0 & S1 & S2).
  exists a, b, n. split; [exact Hn|]. split; [exact Hab|]. split; [reflexivity|]. split; [apply linspace_length|].
  split; [exact S0|]. split; [exact S1|]. intros k Hk. apply (S2 k Hk).
Qed.

Lemma bin_edges_accepted l rb es K lg mp : bin_edges l rb = Ok es -> K = (length es - 1)%nat ->
  exists h, mk_hist_logits 1 es K lg mp = Ok h.
Proof.
  intros H ->. destruct (bin_edges_spec l rb es H) as (a & b & n & Hn & Hab & _ & L & _ & _ & W).
  eexists. apply mk_hist_logits_spec. split; [reflexivity|]. split; [lia|]. split; [|split; reflexivity].
  intros k Hk. specialize (W k ltac:(lia)). assert (0 < (b - a) / INR n); [|lra].
  apply Rmult_lt_0_compat; [lra|]. apply Rinv_0_lt_compat, lt_0_INR. lia.
Qed.

Lemma auto_fit_raises l es lg mp h : (exists x y, In x l /\ In y l /\ x <> y) -> bin_edges l None = Ok es ->
  mk_hist_logits 1 es (length es - 1) lg mp = Ok h -> h_fit h (map (fun x => (1, x)) l) = Err /\ h_log_prob h (lmaxR l) = NInf.
Proof.
  intros N E EH. destruct (bin_edges_spec l None es E) as (a & b & n & Hn & Hab & EO & L & E0 & EN & W).
  destruct (outer_spec l None a b EO) as (_ & _ & K). destruct (K eq_refl N) as [-> ->].
  apply mk_hist_logits_spec in EH. destruct EH as (_ & _ & _ & _ & ->). set (h := mkHist _ _ _).
  assert (nbins h = n) as EB by (unfold nbins; cbn [h h_edges]; lia).
  assert (edge h (nbins h) = lmaxR l) as EE by (rewrite EB; exact EN).
  assert (l <> []) as NE by (destruct N as (x & _ & Hx & _); intros ->; destruct Hx).
  split.
  - apply fit_raises. exists (1, lmaxR l). split; [|cbn [snd]; rewrite EE; lra].
    apply in_map_iff. exists (lmaxR l). split; [reflexivity|now apply lmax_in].
  - apply out_of_bins. right. rewrite EE. lra.
Qed.
