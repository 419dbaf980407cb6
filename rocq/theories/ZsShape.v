(** The shape of the region trees, and which generator seeds the components use. *)
From Coq Require Import List Arith ZArith Bool Reals Lia Permutation.
From Verif Require Import Base ScopeModel CircuitModel LeafModel SignedModel SignedProofs TripleModel ZsModel ZsSpec ZsTree ZsMain.
Import ListNotations.
Local Open Scope nat_scope.

(** every inner node has two children, one with half of its variables (rounded down) *)
Inductive halving : tnode -> Prop :=
| hv_leaf v : halving (TN [v] [])
| hv_node sc a b : 2 <= length sc -> length (tscope a) = length sc / 2 -> length (tscope b) = length sc - length sc / 2 ->
    halving a -> halving b -> halving (TN sc [a; b]).
(** every inner node splits off one variable, in the order of [sc] *)
Inductive chain : tnode -> Prop :=
| ch_leaf v : chain (TN [v] [])
| ch_node v sc b : tscope b = sc -> chain b -> chain (TN (v :: sc) [TN [v] []; b]).
(** the variables of the pixels with y0 <= y < y1 and x0 <= x < x1 of a c x h x w image *)
Definition box (c h w y0 y1 x0 x1 : nat) (sc : list nat) : Prop :=
  forall v, In v sc <-> exists k y x, k < c /\ y0 <= y < y1 /\ x0 <= x < x1 /\ v = k * (h * w) + y * w + x.
Definition mid (a b : nat) : nat := a + (b - a) / 2.
(** halves of the longer side *)
Inductive rect2 (c h w : nat) : nat -> nat -> nat -> nat -> tnode -> Prop :=
| r2_pixel y x sc : box c h w y (S y) x (S x) sc -> rect2 c h w y (S y) x (S x) (TN sc [])
| r2_rows y0 y1 x0 x1 sc a b : x1 - x0 <= y1 - y0 -> 2 <= y1 - y0 -> box c h w y0 y1 x0 x1 sc ->
    rect2 c h w y0 (mid y0 y1) x0 x1 a -> rect2 c h w (mid y0 y1) y1 x0 x1 b -> rect2 c h w y0 y1 x0 x1 (TN sc [a; b])
| r2_cols y0 y1 x0 x1 sc a b : y1 - y0 < x1 - x0 -> box c h w y0 y1 x0 x1 sc ->
    rect2 c h w y0 y1 x0 (mid x0 x1) a -> rect2 c h w y0 y1 (mid x0 x1) x1 b -> rect2 c h w y0 y1 x0 x1 (TN sc [a; b]).
(** quadrants; halves of a row or column of pixels *)
Inductive rect4 (c h w : nat) : nat -> nat -> nat -> nat -> tnode -> Prop :=
| r4_pixel y x sc : box c h w y (S y) x (S x) sc -> rect4 c h w y (S y) x (S x) (TN sc [])
| r4_quad y0 y1 x0 x1 sc a1 a2 a3 a4 : 2 <= y1 - y0 -> 2 <= x1 - x0 -> box c h w y0 y1 x0 x1 sc ->
    rect4 c h w y0 (mid y0 y1) x0 (mid x0 x1) a1 -> rect4 c h w y0 (mid y0 y1) (mid x0 x1) x1 a2 ->
    rect4 c h w (mid y0 y1) y1 x0 (mid x0 x1) a3 -> rect4 c h w (mid y0 y1) y1 (mid x0 x1) x1 a4 -> rect4 c h w y0 y1 x0 x1 (TN sc [a1; a2; a3; a4])
| r4_rows y0 y1 x sc a b : 2 <= y1 - y0 -> box c h w y0 y1 x (S x) sc ->
    rect4 c h w y0 (mid y0 y1) x (S x) a -> rect4 c h w (mid y0 y1) y1 x (S x) b -> rect4 c h w y0 y1 x (S x) (TN sc [a; b])
| r4_cols y x0 x1 sc a b : 2 <= x1 - x0 -> box c h w y (S y) x0 x1 sc ->
    rect4 c h w y (S y) x0 (mid x0 x1) a -> rect4 c h w y (S y) (mid x0 x1) x1 b -> rect4 c h w y (S y) x0 x1 (TN sc [a; b]).

Lemma patch_box c h w y0 y1 x0 x1 : box c h w y0 y1 x0 x1 (patch_indices c h w y0 y1 x0 x1).
Proof.
  intros v. unfold patch_indices. rewrite in_flat_map. split.
  - intros (k & Hk & H). apply in_flat_map in H. destruct H as (y & Hy & H). apply in_map_iff in H. destruct H as (x & <- & Hx). apply in_seq in Hk, Hy, Hx. exists k, y, x. repeat split; lia.
  - intros (k & y & x & Hk & Hy & Hx & ->). exists k. split; [apply in_seq; lia|]. apply in_flat_map. exists y. split; [apply in_seq; lia|]. apply in_map_iff. exists x. split; [reflexivity|apply in_seq; lia].
Qed.
Lemma binary_halving sh : shuffling sh -> forall fuel p sc, length sc <= S fuel -> sc <> [] -> halving (random_binary fuel sh p sc) /\ tscope (random_binary fuel sh p sc) = sc.
Proof.
  intros SH. assert (one : forall sc : list nat, length sc <= 1 -> sc <> [] -> halving (TN sc [])) by (intros [|v [|u sc]] L N; [congruence|constructor|cbn in L; lia]).
  induction fuel as [|fuel IH]; intros p sc HL HN; cbn [random_binary]; [split; [now apply one|reflexivity]|].
  destruct (Nat.leb_spec (length sc) 1) as [H1|H1]; [split; [now apply one|reflexivity]|].
  pose proof (split_lengths (sh p sc)) as HS. destruct (split_binary (sh p sc)) as [l r]. destruct HS as (E & L1 & L2).
  pose proof (Permutation_length (SH p sc)) as LP. rewrite LP in L1, L2. destruct (half_bounds (length sc) ltac:(lia)) as (B1 & B2 & B3).
  destruct l as [|a l]; [cbn in L1; lia|]. destruct r as [|b r]; [cbn in L2; lia|]. cbn [isnil orb].
  destruct (IH (true :: p) (a :: l) ltac:(lia) ltac:(discriminate)) as (R1 & S1). destruct (IH (false :: p) (b :: r) ltac:(lia) ltac:(discriminate)) as (R2 & S2).
  split; [|reflexivity]. constructor; [lia|now rewrite S1|now rewrite S2|exact R1|exact R2].
Qed.
Lemma linear_chain order : order <> [] -> chain (linear_tree order) /\ tscope (linear_tree order) = order.
Proof.
  induction order as [|v rest IH]; [easy|]. intros _. destruct rest as [|u rest]; [split; [constructor|reflexivity]|].
  destruct (IH ltac:(discriminate)) as [C T]. change (linear_tree (v :: u :: rest)) with (TN (v :: u :: rest) [TN [v] []; linear_tree (u :: rest)]). split; [now constructor|reflexivity].
Qed.
Lemma mid_bounds a b : 2 <= b - a -> a < mid a b < b.
Proof. intros H. unfold mid. destruct (half_bounds (b - a) H) as (A & B & _). lia. Qed.

Lemma quad_rect2 c h w : forall fuel y0 y1 x0 x1, y0 < y1 -> x0 < x1 -> (y1 - y0) + (x1 - x0) <= fuel + 2 -> rect2 c h w y0 y1 x0 x1 (quadtree fuel c h w 2 y0 y1 x0 x1).
Proof.
  induction fuel as [|fuel IH]; intros y0 y1 x0 x1 Hy Hx HF.
  - cbn [quadtree]. replace y1 with (S y0) by lia. replace x1 with (S x0) by lia. constructor. apply patch_box.
  - rewrite quadtree_step by assumption. destruct (Nat.leb_spec (y1 - y0) 1) as [A|A], (Nat.leb_spec (x1 - x0) 1) as [B|B]; cbn [andb].
    { replace y1 with (S y0) by lia. replace x1 with (S x0) by lia. constructor. apply patch_box. }
    all: unfold cuts; cbn [Nat.eqb]; fold (mid y0 y1) (mid x0 x1).
    all: assert (Ty : 2 <= y1 - y0 -> y0 < mid y0 y1 < y1) by apply mid_bounds; assert (Tx : 2 <= x1 - x0 -> x0 < mid x0 x1 < x1) by apply mid_bounds.
    all: destruct (Nat.leb_spec (x1 - x0) (y1 - y0)) as [C|C], (Nat.ltb_spec 1 (y1 - y0)) as [D|D]; try lia; cbn [andb].
    all: try (destruct (Nat.ltb_spec 1 (x1 - x0)) as [E|E]; [|lia]).
    all: match goal with |- context [filter nonempty_b ?l] => replace (filter nonempty_b l) with l by (symmetry; cbn [filter nonempty_b]; rewrite !(proj2 (Nat.leb_gt _ _)) by lia; reflexivity) end; cbn [map].
    all: first [apply r2_rows; [lia|lia|apply patch_box|apply IH; lia|apply IH; lia] | apply r2_cols; [lia|apply patch_box|apply IH; lia|apply IH; lia]].
Qed.
Lemma mid_one a b : b - a = 1 -> mid a b = a.
Proof. intros H. unfold mid. rewrite H. change (1 / 2) with 0. lia. Qed.
Lemma quad_rect4 c h w : forall fuel y0 y1 x0 x1, y0 < y1 -> x0 < x1 -> (y1 - y0) + (x1 - x0) <= fuel + 2 -> rect4 c h w y0 y1 x0 x1 (quadtree fuel c h w 4 y0 y1 x0 x1).
Proof.
  induction fuel as [|fuel IH]; intros y0 y1 x0 x1 Hy Hx HF.
  - cbn [quadtree]. replace y1 with (S y0) by lia. replace x1 with (S x0) by lia. constructor. apply patch_box.
  - rewrite quadtree_step by assumption. destruct (Nat.leb_spec (y1 - y0) 1) as [A|A], (Nat.leb_spec (x1 - x0) 1) as [B|B]; cbn [andb].
    { replace y1 with (S y0) by lia. replace x1 with (S x0) by lia. constructor. apply patch_box. }
    all: unfold cuts; cbn [Nat.eqb]; fold (mid y0 y1) (mid x0 x1); cbn [filter nonempty_b].
    + rewrite (mid_one y0 y1) by lia. pose proof (mid_bounds x0 x1 ltac:(lia)) as T.
      rewrite (proj2 (Nat.leb_le y0 y0)) by lia. rewrite !(proj2 (Nat.leb_gt _ _)) by lia. cbn [negb orb map]. replace y1 with (S y0) in * by lia. apply r4_cols; [lia|apply patch_box|apply IH; lia|apply IH; lia].
    + rewrite (mid_one x0 x1) by lia. pose proof (mid_bounds y0 y1 ltac:(lia)) as T.
      rewrite (proj2 (Nat.leb_le x0 x0)) by lia. rewrite !orb_true_r. rewrite !(proj2 (Nat.leb_gt _ _)) by lia. cbn [negb orb map]. replace x1 with (S x0) in * by lia. apply r4_rows; [lia|apply patch_box|apply IH; lia|apply IH; lia].
    + pose proof (mid_bounds x0 x1 ltac:(lia)) as T. pose proof (mid_bounds y0 y1 ltac:(lia)) as T'. rewrite !(proj2 (Nat.leb_gt _ _)) by lia. cbn [negb orb map].
      apply r4_quad; [lia|lia|apply patch_box|apply IH; lia|apply IH; lia|apply IH; lia|apply IH; lia].
Qed.
Definition shape_of (rg : region_graph) (n : nat) (img : option (nat * nat * nat)) (t : tnode) : Prop :=
  match rg, img with
  | RndBt, _ => halving t
  | RndLt, _ => chain t
  | Lt, _ => chain t /\ tscope t = seq 0 n
  | Qt2, Some (c, h, w) => rect2 c h w 0 h 0 w t
  | (Qt | Qt4), Some (c, h, w) => rect4 c h w 0 h 0 w t
  | _, _ => False
  end.
Lemma tree_shape rg n img sh t : 0 < n -> good_image n img -> shuffling sh -> build_tree rg n img sh = Ok t -> shape_of rg n img t.
Proof.
  intros Hn GI SH. assert (NE : seq 0 n <> []) by (destruct n; [lia|discriminate]). unfold build_tree, shape_of. destruct rg; try discriminate.
  - intros H. injection H as <-. apply (binary_halving sh SH n [] (seq 0 n)); [rewrite seq_length; lia|exact NE].
  - intros H. injection H as <-. apply linear_chain. intros E. apply NE. apply Permutation_nil. rewrite <- E. apply SH.
  - intros H. injection H as <-. now apply linear_chain.
  - destruct img as [[[c h] w]|]; [|discriminate]. intros H. injection H as <-. destruct GI as (_ & A & B & _). apply quad_rect4; lia.
  - destruct img as [[[c h] w]|]; [|discriminate]. intros H. injection H as <-. destruct GI as (_ & A & B & _). apply quad_rect2; lia.
  - destruct img as [[[c h] w]|]; [|discriminate]. intros H. injection H as <-. destruct GI as (_ & A & B & _). apply quad_rect4; lia.
Qed.

(** ** Seeds *)
Lemma square_seed a g s s' i l l' : sh_of s = sh_of s' -> square a g s i = Ok l -> square a g s' i = Ok l' ->
  length l = (if a_complex a then 2 else 1) /\ length l' = length l /\
  forall j, j < length l -> dr_of s (a_seed a + 10000 + Z.of_nat ((if a_complex a then 2 else 1) * i + j))%Z = dr_of s' (a_seed a + 10000 + Z.of_nat ((if a_complex a then 2 else 1) * i + j))%Z -> nth_error l j = nth_error l' j.
Proof.
  unfold square. intros ->. destruct (build_tree _ _ _ _) as [t|]; [|discriminate]. cbn [bind]. destruct (a_complex a).
  - destruct (build_component t g (dr_of s (a_seed a + 10000 + 2 * Z.of_nat i)%Z) false) as [r1|] eqn:E1; [|discriminate]. cbn [bind]. destruct (build_component t g (dr_of s (a_seed a + 10000 + 2 * Z.of_nat i + 1)%Z) false) as [r2|] eqn:E2; [|discriminate]. cbn [bind].
    destruct (build_component t g (dr_of s' (a_seed a + 10000 + 2 * Z.of_nat i)%Z) false) as [r3|] eqn:E3; [|discriminate]. cbn [bind]. destruct (build_component t g (dr_of s' (a_seed a + 10000 + 2 * Z.of_nat i + 1)%Z) false) as [r4|] eqn:E4; [|discriminate]. cbn [bind].
    intros H H'. injection H as <-. injection H' as <-. split; [reflexivity|]. split; [reflexivity|]. intros [|[|j]] Hj D; cbn [nth_error length] in *; [| |lia].
    + replace (a_seed a + 10000 + Z.of_nat (2 * i + 0))%Z with (a_seed a + 10000 + 2 * Z.of_nat i)%Z in D by lia. congruence.
    + replace (a_seed a + 10000 + Z.of_nat (2 * i + 1))%Z with (a_seed a + 10000 + 2 * Z.of_nat i + 1)%Z in D by lia. congruence.
  - destruct (build_component t g (dr_of s _) false) as [r1|] eqn:E1; [|discriminate]. cbn [bind]. destruct (build_component t g (dr_of s' _) false) as [r2|] eqn:E2; [|discriminate]. cbn [bind].
    intros H H'. injection H as <-. injection H' as <-. split; [reflexivity|]. split; [reflexivity|]. intros [|j] Hj D; cbn [nth_error length] in *; [|lia].
    replace (1 * i + 0) with i in D by lia. congruence.
Qed.
Lemma squares_seed a g s s' n : sh_of s = sh_of s' -> forall i0 css css', mapR (square a g s) (seq i0 n) = Ok css -> mapR (square a g s') (seq i0 n) = Ok css' ->
  forall j, dr_of s (a_seed a + 10000 + Z.of_nat ((if a_complex a then 2 else 1) * i0 + j))%Z = dr_of s' (a_seed a + 10000 + Z.of_nat ((if a_complex a then 2 else 1) * i0 + j))%Z ->
  nth_error (concat css) j = nth_error (concat css') j.
Proof.
  intros ES. induction n as [|n IH]; intros i0 css css' H H' j D; cbn [seq mapR] in H, H'.
  - injection H as <-. injection H' as <-. reflexivity.
  - fold (@mapR nat (list smod) (square a g s)) in H. fold (@mapR nat (list smod) (square a g s')) in H'.
    destruct (square a g s i0) as [l|] eqn:E; [|discriminate]. destruct (square a g s' i0) as [l'|] eqn:E'; [|discriminate]. cbn [bind] in H, H'.
    destruct (mapR (square a g s) (seq (S i0) n)) as [r|] eqn:ER; [|discriminate]. destruct (mapR (square a g s') (seq (S i0) n)) as [r'|] eqn:ER'; [|discriminate]. cbn [bind] in H, H'.
    injection H as <-. injection H' as <-. destruct (square_seed a g s s' i0 l l' ES E E') as (L & L' & K). cbn [concat].
    destruct (Nat.lt_ge_cases j (length l)) as [Hj|Hj].
    + rewrite !nth_error_app1 by lia. now apply K.
    + rewrite !nth_error_app2 by lia. rewrite L'. apply (IH (S i0) r r' ER ER'). rewrite L in *. destruct (a_complex a); [replace (2 * S i0 + (j - 2)) with (2 * i0 + j) by lia|replace (1 * S i0 + (j - 1)) with (1 * i0 + j) by lia]; exact D.
Qed.
Lemma mk_socs_id cs cs' : mk_socs cs = Ok cs' -> cs' = cs.
Proof. unfold mk_socs. destruct cs; [discriminate|]. destruct (forallb _ _); [|discriminate]. intros H. now injection H as <-. Qed.
Lemma sos_seeds a s s' cs cs' j : sh_of s = sh_of s' -> sos_model a s = Ok cs -> sos_model a s' = Ok cs' ->
  dr_of s (a_seed a + 10000 + Z.of_nat j)%Z = dr_of s' (a_seed a + 10000 + Z.of_nat j)%Z -> nth_error cs j = nth_error cs' j.
Proof.
  intros ES H H' D. unfold sos_model in *. destruct (Nat.eqb _ 0); [discriminate|]. destruct (negb _); [discriminate|]. destruct (resolve_states a) as [K|]; [|discriminate]. cbn [bind] in *.
  destruct (mapR _ _) as [css|] eqn:E in H; [|discriminate]. destruct (mapR _ _) as [css'|] eqn:E' in H'; [|discriminate]. cbn [bind] in *.
  apply mk_socs_id in H. apply mk_socs_id in H'. subst cs cs'. eapply squares_seed; [exact ES|exact E|exact E'|]. replace ((if a_complex a then 2 else 1) * 0 + j) with j by (destruct (a_complex a); lia). exact D.
Qed.
Lemma exp_seeds a s s' e e' : sh_of s = sh_of s' -> exp_sos_model a s = Ok e -> exp_sos_model a s' = Ok e' ->
  (dr_of s (a_seed a + 20000)%Z = dr_of s' (a_seed a + 20000)%Z -> x_mono e = x_mono e') /\
  forall j, dr_of s (a_seed a + 21000 + Z.of_nat j)%Z = dr_of s' (a_seed a + 21000 + Z.of_nat j)%Z -> nth_error (x_comps e) j = nth_error (x_comps e') j.
Proof.
  intros ES H H'. unfold exp_sos_model in *. destruct (negb _); [discriminate|]. destruct (_ || _)%bool; [discriminate|]. destruct (resolve_states a) as [K|]; [|discriminate]. cbn [bind] in *. rewrite ES in H.
  destruct (build_tree _ _ _ _) as [t|]; [|discriminate]. cbn [bind] in *.
  destruct (build_component t _ (dr_of s (a_seed a + 20000)%Z) true) as [m|] eqn:Em in H; [|discriminate]. destruct (build_component t _ (dr_of s' (a_seed a + 20000)%Z) true) as [m'|] eqn:Em' in H'; [|discriminate]. cbn [bind] in *.
  assert (MK : forall mo l x, mk_expsocs mo l = Ok x -> x = mkExp mo l) by (intros mo l x; unfold mk_expsocs; destruct l; [discriminate|]; destruct (negb _); [discriminate|]; destruct (forallb _ _); [|discriminate]; intros X; now injection X as <-).
  destruct (a_complex a).
  - destruct (build_component t _ (dr_of s (a_seed a + 21000)%Z) true) as [r1|] eqn:E1 in H; [|discriminate]. cbn [bind] in H. destruct (build_component t _ (dr_of s (a_seed a + 21001)%Z) true) as [r2|] eqn:E2 in H; [|discriminate].
    destruct (build_component t _ (dr_of s' (a_seed a + 21000)%Z) true) as [r3|] eqn:E3 in H'; [|discriminate]. cbn [bind] in H'. destruct (build_component t _ (dr_of s' (a_seed a + 21001)%Z) true) as [r4|] eqn:E4 in H'; [|discriminate]. cbn [bind] in *.
    apply MK in H. apply MK in H'. subst e e'. cbn [x_mono x_comps]. split; [intros D; congruence|]. intros [|[|j]] D; cbn [nth_error]; [| |reflexivity].
    + rewrite Z.add_0_r in D. congruence.
    + replace (a_seed a + 21000 + Z.of_nat 1)%Z with (a_seed a + 21001)%Z in D by lia. congruence.
  - destruct (build_component t _ (dr_of s (a_seed a + 21000)%Z) true) as [r1|] eqn:E1 in H; [|discriminate]. destruct (build_component t _ (dr_of s' (a_seed a + 21000)%Z) true) as [r3|] eqn:E3 in H'; [|discriminate]. cbn [bind] in *.
    apply MK in H. apply MK in H'. subst e e'. cbn [x_mono x_comps]. split; [intros D; congruence|]. intros [|j] D; cbn [nth_error]; [|reflexivity]. rewrite Z.add_0_r in D. congruence.
Qed.
