(** Hidden Chow-Liu tree circuits (HcltModel): structure and value. *)
From Coq Require Import List Arith ZArith Bool Reals Lia Lra Permutation FunctionalExtensionality.
From Verif Require Import Base ScopeModel ScopeProofs CircuitModel CircuitEval Integral SampleSpec SampleExp ConvProofs LayerModel LayerSpec LayerProofs
  CltModel CltSpec CltElim CltTop MstModel MstSpec MstUf MstKruskal MstTop HcltMiModel HcltModel HcltTree.
Import ListNotations.
Local Open Scope R_scope.

(** *** iterated sums *)
Lemma fupd_same x v k : fupd x v k v = k.
Proof. unfold fupd. now rewrite Nat.eqb_refl. Qed.
Lemma fupd_diff x v k u : u <> v -> fupd x v k u = x u.
Proof. unfold fupd. intros N. apply Nat.eqb_neq in N. now rewrite N. Qed.
Lemma fsum_ext_on K l : forall g h z, (forall y, (forall u, ~ In u l -> y u = z u) -> g y = h y) -> fsum K l g z = fsum K l h z.
Proof.
  induction l as [|v l IH]; intros g h z H; [apply H; reflexivity|]. rewrite !fsum_fupd. apply bsum_ext. intros k _. apply IH. intros y Hy. apply H.
  intros u Hu. rewrite Hy by (intros C; apply Hu; now right). apply fupd_diff. intros ->. apply Hu. now left.
Qed.
Lemma fsum_app K l1 l2 g : forall z, fsum K (l1 ++ l2) g z = fsum K l1 (fun y => fsum K l2 g y) z.
Proof. induction l1 as [|v l IH]; intros z; [reflexivity|]. cbn [app]. rewrite !fsum_fupd. apply bsum_ext. intros k _. apply IH. Qed.
Lemma fsum_pull K l a g z : (forall y, (forall u, ~ In u l -> y u = z u) -> a y = a z) -> fsum K l (fun y => a y * g y) z = a z * fsum K l g z.
Proof. intros H. rewrite <- fsum_scal. apply fsum_ext_on. intros y Hy. now rewrite (H y Hy). Qed.
Lemma fsum_local K l : forall g z z', (forall y y', (forall u, In u l \/ z u = z' u -> y u = y' u) -> g y = g y') -> fsum K l g z = fsum K l g z'.
Proof.
  induction l as [|v l IH]; intros g z z' H; [apply H; intros u [[]|E]; exact E|]. rewrite !fsum_fupd. apply bsum_ext. intros k _. apply IH.
  intros y y' Hy. apply H. intros u Hu. apply Hy. destruct (Nat.eq_dec u v) as [->|N]; [right; now rewrite !fupd_same|]. rewrite !fupd_diff by exact N. destruct Hu as [[E|E]|E]; [congruence|now left|now right].
Qed.

(** a sum of products over disjoint blocks that share only the variable [v] *)
Fixpoint blocks_disj (bs : list (list nat)) : Prop := match bs with [] => True | b :: r => Forall (fun c => forall u, In u b -> ~ In u c) r /\ blocks_disj r end.
Lemma fsum_blocks K v {A} (bs : list A) (sp : A -> list nat) (g : A -> (nat -> nat) -> R) : blocks_disj (map sp bs) -> (forall b, In b bs -> ~ In v (sp b)) ->
  (forall b y y', In b bs -> (forall u, u = v \/ In u (sp b) -> y u = y' u) -> g b y = g b y') ->
  forall z, fsum K (flat_map sp bs) (fun y => lprod bs (fun b => g b y)) z = lprod bs (fun b => fsum K (sp b) (g b) z).
Proof.
  induction bs as [|b bs IH]; intros HD HV HG z; [reflexivity|]. destruct HD as [HD1 HD2]. rewrite Forall_forall in HD1.
  assert (DJ : forall u, In u (sp b) -> ~ In u (flat_map sp bs)).
  { intros u Hu C. apply in_flat_map in C. destruct C as (c & Hc & Huc). apply (HD1 (sp c) (in_map sp bs c Hc) u Hu Huc). }
  cbn [flat_map lprod]. rewrite fsum_app.
  rewrite (fsum_ext_on K (sp b) _ (fun y => lprod bs (fun c => fsum K (sp c) (g c) z) * g b y)).
  - rewrite fsum_scal. ring.
  - intros y Hy. rewrite (fsum_pull K (flat_map sp bs) (g b) (fun y => lprod bs (fun b => g b y))).
    + rewrite IH; [|exact HD2|intros; apply HV; now right|intros; apply HG; [now right|assumption]]. rewrite Rmult_comm. f_equal. apply lprod_ext. intros c Hc.
      apply fsum_local. intros y1 y2 E. apply HG; [now right|]. intros u [->|Hu].
      * apply E. right. apply Hy. apply HV. now left.
      * apply E. now left.
    + intros y' Hy'. apply HG; [now left|]. intros u [->|Hu].
      * apply Hy'. intros C. apply in_flat_map in C. destruct C as (c & Hc & C). exact (HV c (or_intror Hc) C).
      * apply Hy', DJ, Hu.
Qed.
(** and of independent factors *)
Lemma fsum_indep K (g : nat -> nat -> R) l : NoDup l -> forall z, fsum K l (fun y => lprod l (fun v => g v (y v))) z = lprod l (fun v => bsum K (g v)).
Proof.
  induction 1 as [|v l NI ND IH]; intros z; [reflexivity|]. rewrite fsum_fupd. cbn [lprod].
  rewrite (bsum_ext K _ (fun k => g v k * lprod l (fun v => bsum K (g v)))); [now rewrite bsum_scal_r|].
  intros k _. rewrite (fsum_pull K l (fun y => g v (y v)) (fun y => lprod l (fun v => g v (y v)))).
  - rewrite fupd_same. now rewrite IH.
  - intros y Hy. now rewrite (Hy v NI).
Qed.

Lemma bprod_nth {A} (l : list A) a0 (g : A -> R) : bprod (length l) (fun i => g (nth i l a0)) = lprod l g.
Proof. induction l as [|a l IH]; [reflexivity|]. cbn [length lprod]. rewrite bprod_S_first. cbn [nth]. now rewrite IH. Qed.

(** *** neighbours *)
Lemma adjacent_In T v c : In c (adjacent T v) <-> edge T v c.
Proof.
  unfold adjacent, edge. rewrite in_flat_map. split.
  - intros ([a b] & He & H). cbn [fst snd] in H. apply in_app_or in H. destruct H as [H|H].
    + destruct (Nat.eqb_spec a v) as [->|]; [|contradiction]. destruct H as [<-|[]]. now left.
    + destruct (Nat.eqb_spec b v) as [->|]; [|contradiction]. destruct H as [<-|[]]. now right.
  - intros [H|H]; [exists (v, c)|exists (c, v)]; (split; [exact H|]); cbn [fst snd]; rewrite Nat.eqb_refl; apply in_or_app; [left|right]; now left.
Qed.
Lemma adjacent_NoDup T v : NoDup T -> (forall a b, In (a, b) T -> (a < b)%nat) -> NoDup (adjacent T v).
Proof.
  induction 1 as [|[a b] T NI ND IH]; intros HC; [constructor|]. unfold adjacent. cbn [flat_map fst snd]. fold (adjacent T v).
  assert (AB : (a < b)%nat) by (apply HC; now left). assert (HC' : forall a b, In (a, b) T -> (a < b)%nat) by (intros; apply HC; now right).
  specialize (IH HC'). destruct (Nat.eqb_spec a v) as [->|Na]; cbn [app].
  - replace (Nat.eqb b v) with false by (symmetry; apply Nat.eqb_neq; lia). cbn [app]. constructor; [|exact IH]. intros C. apply adjacent_In in C. destruct C as [C|C]; [contradiction|]. apply HC' in C. lia.
  - destruct (Nat.eqb_spec b v) as [->|Nb]; cbn [app]; [|exact IH]. constructor; [|exact IH]. intros C. apply adjacent_In in C. destruct C as [C|C]; [|contradiction]. apply HC' in C. lia.
Qed.

(** *** the shape of the built circuit, for any parameters *)
Section Shape.
Context (T : list (nat * nat)) (H : nat).
Definition kids (v : nat) (p : option nat) : list nat := filter (not_parent p) (adjacent T v).
Fixpoint hs (em : nat -> nat -> row -> lval) (tr : nat -> nat -> nat -> R) (oc k v : nat) (p : option nat) : hmod :=
  match k with
  | O => HLeaf v H (em v)
  | S k' => match kids v p with
            | [] => HLeaf v H (em v)
            | cs => HMul (HLeaf v H (em v) :: map (fun c => HSum c oc (tr c) (hs em tr oc k' c (Some v))) cs)
            end
  end.
Fixpoint ord (k v : nat) (p : option nat) : list nat :=
  match k with O => [v] | S k' => v :: flat_map (fun c => ord k' c (Some v)) (kids v p) end.
Lemma hs_vars em tr oc k : forall v p, hvars (hs em tr oc k v p) = ord k v p.
Proof.
  induction k as [|k IH]; intros v p; [reflexivity|]. cbn [hs ord]. destruct (kids v p) as [|c cs]; [reflexivity|]. cbn [hvars flat_map map]. rewrite IH. cbn [app]. do 2 f_equal.
  induction cs as [|d cs IHc]; [reflexivity|]. cbn [map flat_map hvars]. now rewrite IH, IHc.
Qed.
Lemma hs_params em tr oc em' tr' k : forall v p, with_params em' tr' (hs em tr oc k v p) = hs em' tr' oc k v p.
Proof.
  induction k as [|k IH]; intros v p; [reflexivity|]. cbn [hs]. destruct (kids v p) as [|c cs]; [reflexivity|]. cbn [with_params]. f_equal. cbn [map with_params]. rewrite IH. do 2 f_equal.
  rewrite map_map. apply map_ext. intros d. cbn [with_params]. now rewrite IH.
Qed.
Lemma list_max_chan oc (l : list hmod) : (oc = 1 \/ oc = H)%nat -> (1 <= H)%nat -> (forall m, In m l -> hch m = oc) -> list_max (H :: map hch l) = H.
Proof.
  intros HO HH HL. cbn [list_max fold_right]. fold (list_max (map hch l)). assert (list_max (map hch l) <= H)%nat; [|lia].
  apply list_max_le. apply Forall_forall. intros n Hn. apply in_map_iff in Hn. destruct Hn as (m & <- & Hm). rewrite (HL m Hm). lia.
Qed.
Lemma hs_ch em tr oc k v p : (oc = 1 \/ oc = H)%nat -> (1 <= H)%nat -> hch (hs em tr oc k v p) = H.
Proof.
  intros HO HH. destruct k as [|k]; [reflexivity|]. cbn [hs]. destruct (kids v p) as [|c cs]; [reflexivity|]. cbn [hch map].
  change (list_max (H :: map hch (map (fun d => HSum d oc (tr d) (hs em tr oc k d (Some v))) (c :: cs))) = H). apply (list_max_chan oc); auto.
  intros m Hm. apply in_map_iff in Hm. destruct Hm as (d & <- & _). reflexivity.
Qed.
Lemma hs_sh em tr oc k x : (oc = 1 \/ oc = H)%nat -> (1 <= H)%nat -> forall v p, t_sh (hten (hs em tr oc k v p) x) = mkShape 1 H 1.
Proof.
  intros HO HH. induction k as [|k IH]; intros v p; [reflexivity|]. cbn [hs]. destruct (kids v p) as [|c cs]; [reflexivity|].
  cbn [hten]. set (l := c :: cs). cbn [t_sh map]. rewrite map_map. unfold ew_shape.
  match goal with |- context [ew_accepts ?t] => set (ts := t) end. assert (CH : forall t, In t ts -> (t_ch t = 1 \/ t_ch t = H)%nat /\ t_ft t = 1%nat /\ repetitions (t_sh t) = 1%nat).
  { intros t [<-|Ht]; [cbn; auto|]. apply in_map_iff in Ht. destruct Ht as (d & <- & _). cbn. auto. }
  assert (MX : ew_channels ts = H).
  { unfold ew_channels. apply Nat.le_antisymm.
    - apply list_max_le. apply Forall_forall. intros n Hn. apply in_map_iff in Hn. destruct Hn as (t & <- & Ht). destruct (CH t Ht) as [[E|E] _]; rewrite E; lia.
    - unfold ts. cbn [map list_max fold_right t_ch t_sh channels]. unfold t_ch at 1. cbn. lia. }
  assert (AC : ew_accepts ts = true).
  { unfold ew_accepts. rewrite MX. apply forallb_forall. intros t Ht. destruct (CH t Ht) as [[E|E] _]; rewrite E, Nat.eqb_refl; [reflexivity|apply orb_true_r]. }
  rewrite AC. cbn [andb]. rewrite MX. match goal with |- context [if ?b then _ else _] => replace b with true end; [reflexivity|].
  symmetry. apply forallb_forall. intros t Ht. destruct (CH t (or_intror Ht)) as (_ & E1 & E2). rewrite E1, E2. reflexivity.
Qed.

(** values *)
Definition A (tr : nat -> nat -> nat -> R) (oc v i b : nat) : R := softmax H (fun j => tr v j (if Nat.eqb v 0 then 0%nat else bidx oc b)) i.
Fixpoint V (em : nat -> nat -> row -> lval) (tr : nat -> nat -> nat -> R) (oc : nat) (x : row) (k v : nat) (p : option nat) (h : nat) : R :=
  match k with
  | O => pr (em v h x)
  | S k' => pr (em v h x) * lprod (kids v p) (fun c => bsum H (fun i => softmax H (fun j => tr c j (bidx oc h)) i * V em tr oc x k' c (Some v) i))
  end.
Lemma bidx_H h : (h < H)%nat -> bidx H h = h.
Proof. unfold bidx. intros Hh. destruct (Nat.eqb_spec H 1); lia. Qed.
Lemma hs_val em tr oc k x : (oc = 1 \/ oc = H)%nat -> (1 <= H)%nat -> forall v p h, (h < H)%nat -> pr (t_ll (hten (hs em tr oc k v p) x) 0 h 0) = V em tr oc x k v p h.
Proof.
  intros HO HH. induction k as [|k IH]; intros v p h Hh; [reflexivity|]. cbn [hs V]. destruct (kids v p) as [|c cs] eqn:EK; [cbn; ring|].
  set (l := c :: cs). cbn [hten]. set (ins := HLeaf v H (em v) :: map _ l). cbn [t_ll]. unfold ew_ll. rewrite pr_ladds.
  rewrite (bprod_nth (map (fun i => hten i x) ins) no_tens (fun t => pr (t_ll t 0 (bidx (t_ch t) h) 0))).
  unfold ins. cbn [map lprod]. f_equal; [cbn [hten t_ll]; unfold t_ch; cbn [t_sh channels]; now rewrite bidx_H|].
  rewrite map_map, lprod_map. apply lprod_ext. intros d _. cbn [hten t_ll t_sh]. unfold t_ch at 1. cbn [t_sh channels]. rewrite pr_lse.
  unfold t_ch. rewrite hs_sh by assumption. cbn [channels]. apply bsum_ext. intros i Hi. rewrite pr_ladd. cbn [pr]. rewrite exp_log_softmax by exact HH. rewrite IH by exact Hi. cbn [t_sh channels]. ring.
Qed.
End Shape.

(** *** on a tree *)
Section OnTree.
Context (f : nat) (T : list (nat * nat)) (HT : tree f T) (par dep : nat -> nat) (D0 : dep 0%nat = 0%nat)
  (HP : forall v, (0 < v < f)%nat -> (par v < f)%nat /\ edge T (par v) v /\ dep v = S (dep (par v)))
  (HE : forall u v, edge T u v -> ((0 < u)%nat /\ par u = v) \/ ((0 < v)%nat /\ par v = u)).
Context (H : nat) (HH : (1 <= H)%nat).
Lemma Hf : (0 < f)%nat.
Proof. exact (tree_pos f T HT). Qed.
Definition pt (v : nat) : option nat := if Nat.eqb v 0 then None else Some (par v).
Lemma kids_In v c : (v < f)%nat -> (In c (kids T v (pt v)) <-> (0 < c < f)%nat /\ par c = v).
Proof.
  intros Hv. unfold kids. rewrite filter_In, adjacent_In. split.
  - intros [E N]. pose proof (edge_lt f T HT Hf v c E) as (_ & Hc & NE). destruct (HE v c E) as [[L P]|[L P]]; [|split; [lia|exact P]].
    unfold pt in N. replace (Nat.eqb v 0) with false in N by (symmetry; apply Nat.eqb_neq; lia). cbn [not_parent] in N. rewrite P, Nat.eqb_refl in N. discriminate.
  - intros [Hc P]. destruct (HP c Hc) as (_ & E & DD). rewrite P in E, DD. split; [exact E|]. unfold pt, not_parent. destruct (Nat.eqb_spec v 0) as [->|N]; [reflexivity|].
    apply negb_true_iff, Nat.eqb_neq. intros C. destruct (HP v ltac:(lia)) as (_ & _ & D2). rewrite <- C in D2. lia.
Qed.
Lemma kids_pt v c : In c (kids T v (pt v)) -> (v < f)%nat -> Some v = pt c.
Proof. intros Hc Hv. apply kids_In in Hc; [|exact Hv]. destruct Hc as [L P]. unfold pt. replace (Nat.eqb c 0) with false by (symmetry; apply Nat.eqb_neq; lia). now rewrite P. Qed.
Lemma kids_NoDup v p : NoDup (kids T v p).
Proof. apply NoDup_filter, adjacent_NoDup; [exact (tree_NoDup f T HT)|exact (proj2 HT)]. Qed.
Lemma flat_kids {B} (g : nat -> option nat -> list B) v : (v < f)%nat -> flat_map (fun c => g c (Some v)) (kids T v (pt v)) = flat_map (fun c => g c (pt c)) (kids T v (pt v)).
Proof.
  intros Hv. assert (G : forall l, incl l (kids T v (pt v)) -> flat_map (fun c => g c (Some v)) l = flat_map (fun c => g c (pt c)) l); [|apply G, incl_refl].
  induction l as [|c l IH]; intros I; [reflexivity|]. cbn [flat_map]. rewrite IH by (intros u Hu; apply I; now right). f_equal. f_equal. apply kids_pt; [apply I; now left|exact Hv].
Qed.
Lemma ord_S k v : (v < f)%nat -> ord T (S k) v (pt v) = v :: flat_map (fun c => ord T k c (pt c)) (kids T v (pt v)).
Proof. intros Hv. cbn [ord]. f_equal. exact (flat_kids (ord T k) v Hv). Qed.
Lemma anc_S k v : anc par (S k) v = par (anc par k v).
Proof. revert v. induction k as [|k IH]; intros v; [reflexivity|]. cbn [anc] in *. now rewrite <- IH. Qed.
Lemma ord_anc k : forall v u, (v < f)%nat -> In u (ord T k v (pt v)) -> (u < f)%nat /\ (dep v <= dep u)%nat /\ anc par (dep u - dep v) u = v.
Proof.
  induction k as [|k IH]; intros v u Hv Hu.
  - destruct Hu as [<-|[]]. rewrite Nat.sub_diag. cbn. auto.
  - rewrite ord_S in Hu by exact Hv. destruct Hu as [<-|Hu]; [rewrite Nat.sub_diag; cbn; auto|]. apply in_flat_map in Hu. destruct Hu as (c & Hc & Hu). apply kids_In in Hc; [|exact Hv]. destruct Hc as [Lc Pc].
    destruct (IH c u ltac:(lia) Hu) as (Lu & Du & Eu). destruct (HP c Lc) as (_ & _ & Dc). rewrite Pc in Dc. split; [exact Lu|]. split; [lia|].
    replace (dep u - dep v)%nat with (S (dep u - dep c)) by lia. rewrite anc_S, Eu. exact Pc.
Qed.
Lemma ord_parent k v u : (v < f)%nat -> In u (ord T k v (pt v)) -> u = v \/ ((0 < u < f)%nat /\ (In (par u) (ord T k v (pt v)))).
Proof.
  revert v u. induction k as [|k IH]; intros v u Hv Hu; [destruct Hu as [<-|[]]; now left|]. rewrite ord_S in * by exact Hv. destruct Hu as [<-|Hu]; [now left|]. right.
  apply in_flat_map in Hu. destruct Hu as (c & Hc & Hu). pose proof Hc as Hc'. apply kids_In in Hc; [|exact Hv]. destruct Hc as [Lc Pc].
  destruct (IH c u ltac:(lia) Hu) as [->|[Lu Pu]]; [split; [exact Lc|rewrite Pc; now left]|]. split; [exact Lu|]. right. apply in_flat_map. exists c. now split.
Qed.
Lemma ord_disj k v c d : (v < f)%nat -> In c (kids T v (pt v)) -> In d (kids T v (pt v)) -> c <> d -> forall u, In u (ord T k c (pt c)) -> ~ In u (ord T k d (pt d)).
Proof.
  intros Hv Hc Hd N u H1 H2. apply kids_In in Hc, Hd; try exact Hv. destruct Hc as [Lc Pc], Hd as [Ld Pd].
  destruct (ord_anc k c u ltac:(lia) H1) as (_ & _ & E1). destruct (ord_anc k d u ltac:(lia) H2) as (_ & _ & E2).
  destruct (HP c Lc) as (_ & _ & D1). destruct (HP d Ld) as (_ & _ & D2). rewrite Pc in D1. rewrite Pd in D2. apply N. rewrite <- E1, <- E2. now rewrite D1, D2.
Qed.
Lemma ord_not_root k v c : (v < f)%nat -> In c (kids T v (pt v)) -> ~ In v (ord T k c (pt c)).
Proof.
  intros Hv Hc C. apply kids_In in Hc; [|exact Hv]. destruct Hc as [Lc Pc]. destruct (ord_anc k c v ltac:(lia) C) as (_ & L & _). destruct (HP c Lc) as (_ & _ & D1). rewrite Pc in D1. lia.
Qed.
Lemma blocks_of (sp : nat -> list nat) l : NoDup l -> (forall c d, In c l -> In d l -> c <> d -> forall u, In u (sp c) -> ~ In u (sp d)) -> blocks_disj (map sp l).
Proof.
  induction 1 as [|c l NI ND IH]; intros HD; [constructor|]. cbn [map blocks_disj]. split; [|apply IH; intros a b Ha Hb; apply (HD a b); now right].
  apply Forall_forall. intros b Hb. apply in_map_iff in Hb. destruct Hb as (d & <- & Hd). apply (HD c d); [now left|now right|intros ->; contradiction].
Qed.
Lemma kids_blocks k v : (v < f)%nat -> blocks_disj (map (fun c => ord T k c (pt c)) (kids T v (pt v))).
Proof. intros Hv. apply blocks_of; [apply kids_NoDup|]. intros c d Hc Hd N. now apply (ord_disj k v). Qed.
Lemma flat_NoDup (sp : nat -> list nat) l : (forall c, In c l -> NoDup (sp c)) -> blocks_disj (map sp l) -> NoDup (flat_map sp l).
Proof.
  induction l as [|c l IH]; intros HN HD; [constructor|]. destruct HD as [H1 H2]. cbn [flat_map]. apply NoDup_app_intro; [apply HN; now left|apply IH; [intros; apply HN; now right|exact H2]|].
  intros u Hu C. apply in_flat_map in C. destruct C as (d & Hd & C). rewrite Forall_forall in H1. exact (H1 (sp d) (in_map sp l d Hd) u Hu C).
Qed.
Lemma ord_NoDup k : forall v, (v < f)%nat -> NoDup (ord T k v (pt v)).
Proof.
  induction k as [|k IH]; intros v Hv; [constructor; [easy|constructor]|]. rewrite ord_S by exact Hv. constructor.
  - intros C. apply in_flat_map in C. destruct C as (c & Hc & C). exact (ord_not_root k v c Hv Hc C).
  - apply flat_NoDup; [|now apply kids_blocks]. intros c Hc. apply IH. destruct (proj1 (kids_In v c Hv) Hc). lia.
Qed.
Lemma ord_all k : forall v u, (v < f)%nat -> (u < f)%nat -> (dep v <= dep u)%nat -> (dep u <= dep v + k)%nat -> anc par (dep u - dep v) u = v -> In u (ord T k v (pt v)).
Proof.
  induction k as [|k IH]; intros v u Hv Hu L1 L2 E.
  - replace (dep u - dep v)%nat with 0%nat in E by lia. cbn in E. subst. now left.
  - rewrite ord_S by exact Hv. destruct (Nat.eq_dec (dep u) (dep v)) as [EQ|NE].
    + replace (dep u - dep v)%nat with 0%nat in E by lia. cbn in E. subst. now left.
    + right. apply in_flat_map. replace (dep u - dep v)%nat with (S (dep u - dep v - 1)) in E by lia. rewrite anc_S in E.
      set (c := anc par (dep u - dep v - 1) u) in *. destruct (anc_dep f T Hf par dep D0 HP (dep u - dep v - 1) u Hu ltac:(lia)) as [Lc Dc]. fold c in Lc, Dc.
      assert (C0 : (0 < c)%nat) by (destruct (Nat.eq_dec c 0) as [Z|]; [rewrite Z, D0 in Dc; lia|lia]).
      destruct (HP c ltac:(lia)) as (_ & _ & D1). rewrite E in D1.
      exists c. split; [apply kids_In; [exact Hv|split; [lia|exact E]]|]. apply IH; try lia. replace (dep u - dep c)%nat with (dep u - dep v - 1)%nat by lia. reflexivity.
Qed.
Lemma anc_root u : (u < f)%nat -> anc par (dep u) u = 0%nat.
Proof.
  intros Hu. destruct (anc_dep f T Hf par dep D0 HP (dep u) u Hu (le_n _)) as [L D]. apply (dep_0 f T Hf par dep D0 HP); [exact L|lia].
Qed.
Lemma ord_root : Permutation (ord T f 0 None) (seq 0 f).
Proof.
  apply NoDup_Permutation; [apply (ord_NoDup f 0%nat Hf)|apply seq_NoDup|]. intros u. rewrite in_seq. split.
  - intros Hu. destruct (ord_anc f 0%nat u Hf Hu) as (L & _). lia.
  - intros Hu. apply (ord_all f 0%nat u Hf); rewrite ?D0; try lia.
    + pose proof (dep_lt f T Hf par dep D0 HP u ltac:(lia)). lia.
    + rewrite Nat.sub_0_r. apply anc_root. lia.
Qed.

(** *** the value as a sum over all hidden states *)
Section Value.
Context (em : nat -> nat -> row -> lval) (tr : nat -> nat -> nat -> R) (oc : nat) (HO : (oc = 1 \/ oc = H)%nat) (x : row).
Definition loc (u : nat) (y : nat -> nat) : R := A H tr oc u (y u) (y (par u)) * pr (em u (y u) x).
Lemma loc_local u y y' : y u = y' u -> ((0 < u)%nat -> y (par u) = y' (par u)) -> loc u y = loc u y'.
Proof.
  intros E1 E2. unfold loc, A. rewrite E1. destruct (Nat.eqb_spec u 0) as [->|N]; [reflexivity|]. rewrite E2 by lia. reflexivity.
Qed.
Lemma message k : forall v z, (v < f)%nat ->
  bsum H (fun i => A H tr oc v i (z (par v)) * V T H em tr oc x k v (pt v) i) = fsum H (ord T k v (pt v)) (fun y => lprod (ord T k v (pt v)) (fun u => loc u y)) z.
Proof.
  induction k as [|k IH]; intros v z Hv.
  - cbn [ord V]. rewrite fsum_fupd. apply bsum_ext. intros i _. cbn [fsum lprod]. unfold loc. rewrite fupd_same. rewrite Rmult_1_r. f_equal. unfold A. destruct (Nat.eqb_spec v 0) as [->|N]; [reflexivity|].
    rewrite fupd_diff; [reflexivity|]. intros C. destruct (HP v ltac:(lia)) as (_ & _ & DD). rewrite C in DD. lia.
  - rewrite ord_S by exact Hv. rewrite fsum_fupd. apply bsum_ext. intros i _. cbn [lprod V].
    set (z' := fupd z v i). set (rest := flat_map (fun c => ord T k c (pt c)) (kids T v (pt v))).
    assert (NV : ~ In v rest). { intros C. apply in_flat_map in C. destruct C as (c & Hc & C). exact (ord_not_root k v c Hv Hc C). }
    assert (NP : (0 < v)%nat -> ~ In (par v) rest).
    { intros P0 C. apply in_flat_map in C. destruct C as (c & Hc & C). apply kids_In in Hc; [|exact Hv]. destruct Hc as [Lc Pc]. destruct (ord_anc k c (par v) ltac:(lia) C) as (_ & L & _).
      destruct (HP c Lc) as (_ & _ & D1). rewrite Pc in D1. destruct (HP v ltac:(lia)) as (_ & _ & D2). lia. }
    rewrite (fsum_pull H rest (loc v) (fun y => lprod rest (fun u => loc u y)) z').
    + assert (EL : loc v z' = A H tr oc v i (z (par v)) * pr (em v i x)).
      { unfold loc, z'. rewrite fupd_same. f_equal. unfold A. destruct (Nat.eqb_spec v 0) as [->|N]; [reflexivity|]. rewrite fupd_diff; [reflexivity|].
        intros C. destruct (HP v ltac:(lia)) as (_ & _ & DD). rewrite C in DD. lia. }
      rewrite EL, Rmult_assoc. do 2 f_equal.
      assert (LP : forall y, lprod rest (fun u => loc u y) = lprod (kids T v (pt v)) (fun c => lprod (ord T k c (pt c)) (fun u => loc u y))).
      { intros y. unfold rest. apply lprod_flat_map. }
      rewrite (fsum_ext H rest _ _ z' LP). unfold rest.
      rewrite (fsum_blocks H v (kids T v (pt v)) (fun c => ord T k c (pt c)) (fun c y => lprod (ord T k c (pt c)) (fun u => loc u y)) (kids_blocks k v Hv)).
      * apply lprod_ext. intros c Hc. pose proof (kids_pt v c Hc Hv) as EP. apply kids_In in Hc; [|exact Hv]. destruct Hc as [Lc Pc].
        rewrite <- (IH c z' ltac:(lia)). apply bsum_ext. intros j _. rewrite EP. f_equal. unfold A. replace (Nat.eqb c 0) with false by (symmetry; apply Nat.eqb_neq; lia).
        rewrite Pc. unfold z'. rewrite fupd_same. reflexivity.
      * intros c Hc. now apply ord_not_root.
      * intros c y y' Hc Hy. pose proof Hc as Hc'. apply kids_In in Hc; [|exact Hv]. destruct Hc as [Lc Pc]. apply lprod_ext. intros u Hu. apply loc_local; [apply Hy; now right|].
        intros _. destruct (ord_parent k c u ltac:(lia) Hu) as [->|[_ Hp]]; [apply Hy; now left|apply Hy; now right].
    + intros y Hy. apply loc_local; [apply Hy, NV|intros P0; apply Hy, NP, P0].
Qed.
End Value.
End OnTree.
