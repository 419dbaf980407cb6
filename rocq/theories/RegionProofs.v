From Coq Require Import List ZArith Arith Bool Lia Sorted.
From Verif Require Import Base ScopeModel ScopeProofs RegionModel RegionSpec.
Import ListNotations.

Definition children_of (r : region) : list region := concat (r_children r).
Lemma is_child_In c r : is_child c r <-> In c (children_of r).
Proof. unfold is_child, children_of. rewrite in_concat. firstorder. Qed.

Lemma list_sum_In x l : In x l -> x <= list_sum l.
Proof. induction l as [|y l IH]; cbn; [tauto|]. intros [->|H]; [lia|]. apply IH in H. unfold list_sum in H. lia. Qed.
Lemma child_size c r : is_child c r -> rsize c < rsize r.
Proof.
  intros (p & Hp & Hc). destruct r as [s ps]. cbn [r_children] in Hp. cbn [rsize].
  pose proof (list_sum_In _ _ (in_map rsize p c Hc)).
  pose proof (list_sum_In _ _ (in_map (fun p => list_sum (map rsize p)) ps p Hp)). cbn beta in *. lia.
Qed.
Lemma reach_size a r : reach a r -> rsize r <= rsize a.
Proof. induction 1 as [|r c H IH Hc]; [lia|]. apply child_size in Hc. lia. Qed.
Lemma reach_trans a b c : reach a b -> reach b c -> reach a c.
Proof. intros H. induction 1; [assumption|]. econstructor; eauto. Qed.
Lemma region_ind_size (P : region -> Prop) :
  (forall r, (forall c, is_child c r -> P c) -> P r) -> forall r, P r.
Proof.
  intros H r. remember (rsize r) as n eqn:E. revert r E. induction n as [n IH] using lt_wf_ind. intros r ->.
  apply H. intros c Hc. apply (IH (rsize c)); [now apply child_size|reflexivity].
Qed.

(** equality *)
Lemma region_eqb_spec r t : region_eqb r t = true <-> region_equal r t.
Proof.
  revert t. induction r as [[s ps] IH] using region_ind_size. intros [u qs]. cbn [region_eqb].
  rewrite andb_true_iff, scope_eqb_spec.
  assert (forall p q, In p ps -> ((fix one (l : list region) (m : list region) : bool :=
                match l, m with
                | [], [] => true
                | x :: l', y :: m' => region_eqb x y && one l' m'
                | _, _ => false
                end) p q = true <-> Forall2 region_equal p q)) as G1.
  { intros p q Hp. assert (forall c, In c p -> forall t, region_eqb c t = true <-> region_equal c t) as K.
    { intros c Hc. apply IH. exists p. auto. }
    clear IH Hp. revert q. induction p as [|x p IHp]; intros [|y q]; try (split; [discriminate|intros H; inversion H]).
    - split; auto.
    - rewrite andb_true_iff, (K x (or_introl eq_refl)), IHp by (intros; apply K; now right).
      split; [intros [A B]; now constructor|intros H; now inversion H]. }
  set (parts := fix parts (l m : list (list region)) : bool := _).
  assert (forall l m, incl l ps -> (parts l m = true <-> Forall2 (Forall2 region_equal) l m)) as G2.
  { induction l as [|p l IHl]; intros [|q m] Hi; cbn [parts]; try (split; [discriminate|intros H; inversion H]).
    - split; auto.
    - rewrite andb_true_iff, (G1 p q) by (apply Hi; now left). rewrite IHl by (intros x Hx; apply Hi; now right).
      split; [intros [A B]; now constructor|intros H; now inversion H]. }
  rewrite (G2 ps qs) by apply incl_refl.
  split; [intros [[A B] C]; now constructor|]. intros H. inversion H; subst. tauto.
Qed.

Lemma F2_refl {A} (R : A -> A -> Prop) l : (forall x, In x l -> R x x) -> Forall2 R l l.
Proof. induction l; constructor; cbn in *; auto. Qed.
Lemma F2_in {A B} (R : A -> B -> Prop) l m x : Forall2 R l m -> In x l -> exists y, In y m /\ R x y.
Proof. induction 1 as [|a b l m H H2 IH]; [intros []|]. intros [->|Hx]; [exists b; cbn; auto|]. destruct (IH Hx) as (y & Hy & E). exists y; cbn; auto. Qed.
Lemma F2_in' {A B} (R : A -> B -> Prop) l m y : Forall2 R l m -> In y m -> exists x, In x l /\ R x y.
Proof. induction 1 as [|a b l m H H2 IH]; [intros []|]. intros [->|Hx]; [exists a; cbn; auto|]. destruct (IH Hx) as (x & Hy & E). exists x; cbn; auto. Qed.
Lemma F2_trans {A} (R : A -> A -> Prop) l m n : (forall x y z, In x l -> R x y -> R y z -> R x z) ->
  Forall2 R l m -> Forall2 R m n -> Forall2 R l n.
Proof.
  intros K H. revert n. induction H as [|a b l m H H2 IH]; intros n Hn; inversion Hn; subst; constructor.
  - eapply K; cbn; eauto.
  - apply IH; [|assumption]. intros; eapply K; cbn; eauto.
Qed.
Lemma F2_sym {A} (R : A -> A -> Prop) l m : (forall x y, In x l -> R x y -> R y x) -> Forall2 R l m -> Forall2 R m l.
Proof. intros K H. induction H; constructor; [apply K; cbn; auto|]. apply IHForall2. intros; apply K; cbn; auto. Qed.

Lemma region_equal_refl r : region_equal r r.
Proof.
  induction r as [[s ps] IH] using region_ind_size. constructor; try tauto.
  apply F2_refl. intros p Hp. apply F2_refl. intros c Hc. apply IH. exists p; auto.
Qed.
Lemma region_equal_sym r t : region_equal r t -> region_equal t r.
Proof.
  revert t. induction r as [[s ps] IH] using region_ind_size. intros t H. inversion H as [? u ? qs A B C]; subst.
  constructor; [firstorder|firstorder|].
  eapply F2_sym; [|exact C]. intros p q Hp. apply F2_sym. intros c d Hc. apply IH. exists p; auto.
Qed.
Lemma region_equal_trans r t u : region_equal r t -> region_equal t u -> region_equal r u.
Proof.
  revert t u. induction r as [[s ps] IH] using region_ind_size. intros t w H H2.
  inversion H as [? u ? qs A B C]; subst. inversion H2 as [? x ? zs A' B' C']; subst.
  constructor; [intros; rewrite A; auto|intros; rewrite B; auto|].
  eapply F2_trans; [|exact C|exact C']. intros p q z Hp. apply F2_trans. intros c d e Hc. apply IH. exists p; auto.
Qed.
Lemma F2_sum {A} (f : A -> nat) (R : A -> A -> Prop) l m : (forall x y, In x l -> R x y -> f x = f y) ->
  Forall2 R l m -> list_sum (map f l) = list_sum (map f m).
Proof.
  intros K H. induction H; [reflexivity|]. cbn. rewrite (K x y); cbn; auto. f_equal. apply IHForall2. intros; apply K; cbn; auto.
Qed.
Lemma region_equal_size r t : region_equal r t -> rsize r = rsize t.
Proof.
  revert t. induction r as [[s ps] IH] using region_ind_size. intros t H. inversion H as [? u ? qs A B C]; subst.
  cbn [rsize]. f_equal. eapply F2_sum; [|exact C]. intros p q Hp K. eapply F2_sum; [|exact K].
  intros c d Hc. apply IH. exists p; auto.
Qed.
Lemma region_equal_child r t c : region_equal r t -> is_child c r -> exists d, is_child d t /\ region_equal c d.
Proof.
  intros H (p & Hp & Hc). inversion H as [s u ps qs A B C]; subst. cbn in Hp.
  destruct (F2_in _ _ _ _ C Hp) as (q & Hq & K). destruct (F2_in _ _ _ _ K Hc) as (d & Hd & E).
  exists d. split; [exists q; auto|assumption].
Qed.
Lemma same_equal r t : same r t = true -> region_equal r t.
Proof. unfold same. rewrite andb_true_iff, region_eqb_spec. tauto. Qed.
Lemma same_refl r : same r r = true.
Proof. unfold same. rewrite Z.eqb_refl. apply region_eqb_spec, region_equal_refl. Qed.
Lemma same_sym r t : same r t = same t r.
Proof.
  unfold same. rewrite (Z.eqb_sym (region_hash r)). destruct (Z.eqb _ _); [|reflexivity]. cbn.
  destruct (region_eqb r t) eqn:E, (region_eqb t r) eqn:E2; try reflexivity.
  - apply region_eqb_spec, region_equal_sym, region_eqb_spec in E. congruence.
  - apply region_eqb_spec, region_equal_sym, region_eqb_spec in E2. congruence.
Qed.
Lemma same_size r t : same r t = true -> rsize r = rsize t.
Proof. intros H. apply region_equal_size, same_equal, H. Qed.
Lemma in_set_true r l : in_set r l = true <-> exists t, In t l /\ same r t = true.
Proof. unfold in_set. apply existsb_exists. Qed.
Lemma in_set_false r l : in_set r l = false <-> forall t, In t l -> same r t = false.
Proof.
  split.
  - intros H t Ht. destruct (same r t) eqn:E; [|reflexivity]. assert (in_set r l = true) by (apply in_set_true; eauto). congruence.
  - intros H. destruct (in_set r l) eqn:E; [|reflexivity]. apply in_set_true in E. destruct E as (t & Ht & E). rewrite H in E; congruence.
Qed.

Definition distinct (l : list region) : Prop := ForallOrdPairs (fun a b => same a b = false) l.
Lemma FOP_app {A} (R : A -> A -> Prop) l m : ForallOrdPairs R l -> ForallOrdPairs R m ->
  (forall a b, In a l -> In b m -> R a b) -> ForallOrdPairs R (l ++ m).
Proof.
  intros H Hm K. induction H as [|x l Hx H IH]; [assumption|]. cbn. constructor.
  - apply Forall_app. split; [assumption|]. apply Forall_forall. intros b Hb. apply K; cbn; auto.
  - apply IH. intros; apply K; cbn; auto.
Qed.
Definition ordered (l : list region) : Prop := forall l1 r l2, l = l1 ++ r :: l2 ->
  forall c, is_child c r -> exists d, In d l1 /\ same c d = true.
Lemma snoc_cases {A} (l l1 l2 : list A) x y : l ++ [x] = l1 ++ y :: l2 ->
  (l2 = [] /\ y = x /\ l1 = l) \/ exists l3, l2 = l3 ++ [x] /\ l = l1 ++ y :: l3.
Proof.
  destruct (exists_last (l := y :: l2)) as (l3 & z & E); [discriminate|].
  rewrite E. intros H. rewrite app_assoc in H. apply app_inj_tail in H. destruct H as [-> <-].
  destruct l3 as [|w l3].
  - left. cbn in E. injection E as -> ->. rewrite app_nil_r. auto.
  - right. cbn in E. injection E as -> E. exists l3. auto.
Qed.
Lemma ordered_snoc l r : ordered l -> (forall c, is_child c r -> exists d, In d l /\ same c d = true) -> ordered (l ++ [r]).
Proof.
  intros H K l1 x l2 E c Hc. destruct (snoc_cases _ _ _ _ _ E) as [(-> & -> & ->)|(l3 & -> & ->)]; [auto|].
  eapply H; eauto.
Qed.

(** post-condition of visiting the regions [rs] *)
Definition Post (rs : list region) (st st' : list region * list region) : Prop := exists A,
  snd st' = snd st ++ A /\ (forall v, In v (fst st') <-> In v (fst st) \/ In v A) /\
  (forall a, In a A -> exists c, In c rs /\ reach c a) /\
  (forall c, In c rs -> exists d, In d (snd st') /\ same c d = true) /\
  (forall a v, In a A -> In v (fst st) -> same a v = false) /\ distinct A /\
  (ordered (snd st) -> ordered (snd st')).
Definition pre (K : nat) (st : list region * list region) : Prop :=
  (forall v, In v (snd st) -> In v (fst st)) /\ forall v, In v (fst st) -> In v (snd st) \/ K <= rsize v.

Lemma fold_concat {A B} (f : B -> A -> B) (ps : list (list A)) b :
  fold_left (fun st p => fold_left f p st) ps b = fold_left f (concat ps) b.
Proof. revert b. induction ps as [|p ps IH]; intros b; [reflexivity|]. cbn. now rewrite fold_left_app, IH. Qed.

Lemma pre_post K rs st st' : pre K st -> Post rs st st' -> pre K st'.
Proof.
  intros [P1 P2] (A & E & V & _). split.
  - intros v. rewrite E, in_app_iff, V. intros [H|H]; auto.
  - intros v. rewrite V, E, in_app_iff. intros [H|H]; [|auto]. destruct (P2 v H); auto.
Qed.
Lemma dfs_list K cs st :
  (forall c, In c cs -> forall st, pre K st -> Post [c] st (dfs c st)) -> pre K st ->
  Post cs st (fold_left (fun st c => dfs c st) cs st).
Proof.
  revert st. induction cs as [|c cs IH]; intros st H P.
  - exists []. cbn. rewrite app_nil_r. repeat split; try tauto. constructor.
  - cbn [fold_left]. pose proof (H c (or_introl eq_refl) st P) as H1.
    pose proof (pre_post _ _ _ _ P H1) as P1.
    specialize (IH (dfs c st) (fun d Hd => H d (or_intror Hd)) P1).
    destruct H1 as (A & E & V & R & I & D & DA & O). destruct IH as (A' & E' & V' & R' & I' & D' & DA' & O').
    exists (A ++ A'). split; [rewrite E', E, app_assoc; reflexivity|].
    split; [intros v; rewrite V', V, in_app_iff; tauto|]. split.
    { intros a. rewrite in_app_iff. intros [Ha|Ha].
      - destruct (R a Ha) as (x & [<-|[]] & Hx). exists c. cbn; auto.
      - destruct (R' a Ha) as (x & Hx & Hr). exists x. cbn; auto. }
    split.
    { intros x [<-|Hx]; [|auto]. destruct (I c (or_introl eq_refl)) as (d & Hd & S). exists d. split; [|assumption].
      rewrite E', in_app_iff. auto. }
    split.
    { intros a v. rewrite in_app_iff. intros [Ha|Ha] Hv; [auto|]. apply D'; [assumption|]. apply V. auto. }
    split.
    { apply FOP_app; [assumption|assumption|]. intros a b Ha Hb. rewrite same_sym. apply D'; [assumption|]. apply V. auto. }
    auto.
Qed.

Lemma dfs_post r : forall st, pre (S (rsize r)) st -> Post [r] st (dfs r st).
Proof.
  induction r as [[s ps] IH] using region_ind_size. intros [vis res] P. cbn [dfs fst snd].
  set (r := Region s ps) in *. destruct (in_set r vis) eqn:S.
  - exists []. cbn [fst snd]. rewrite app_nil_r.
    apply in_set_true in S. destruct S as (t & Ht & S).
    split; [reflexivity|]. split; [cbn; tauto|]. split; [cbn; tauto|]. split.
    { intros c [<-|[]]. exists t. split; [|assumption]. destruct P as [P1 P2]. destruct (P2 t Ht) as [Q|Q]; [assumption|].
      apply same_size in S. lia. }
    split; [cbn; tauto|]. split; [constructor|]. tauto.
  - rewrite fold_concat. set (st0 := (r :: vis, res)).
    assert (pre (rsize r) st0) as P0.
    { destruct P as [P1 P2]. split; cbn [st0 fst snd] in *.
      - intros v Hv. right. auto.
      - intros v [<-|Hv]; [right; lia|]. destruct (P2 v Hv); [auto|right; lia]. }
    assert (Post (concat ps) st0 (fold_left (fun st c => dfs c st) (concat ps) st0)) as H.
    { apply (dfs_list (rsize r)); [|assumption]. intros c Hc st [P1 P2]. assert (is_child c r) as Hcr by (now apply is_child_In).
      apply IH; [assumption|]. split; [assumption|]. intros v Hv. destruct (P2 v Hv); [auto|right].
      apply child_size in Hcr. lia. }
    destruct (fold_left _ (concat ps) st0) as [vis' res'].
    assert (forall c, In c (concat ps) <-> is_child c r) as HC by (intros c; rewrite is_child_In; reflexivity).
    clearbody r. destruct H as (A & E & V & R & I & D & DA & O). unfold st0 in *. cbn [fst snd] in *.
    assert (forall a, In a A -> rsize a < rsize r) as SA.
    { intros a Ha. destruct (R a Ha) as (c & Hc & Hr). apply HC, child_size in Hc. apply reach_size in Hr. lia. }
    exists (A ++ [r]). cbn [fst snd]. split; [rewrite E, app_assoc; reflexivity|]. split.
    { intros v. rewrite V, in_app_iff. cbn. intuition. }
    split.
    { intros a. rewrite in_app_iff. intros [Ha|[<-|[]]].
      - destruct (R a Ha) as (c & Hc & Hr). exists r. split; [cbn; auto|]. apply reach_trans with c; [|assumption].
        econstructor; [constructor|]. now apply HC.
      - exists r. split; [cbn; auto|constructor]. }
    split. { intros c [<-|[]]. exists r. split; [rewrite in_app_iff; cbn; auto|apply same_refl]. }
    split.
    { intros a v. rewrite in_app_iff. intros [Ha|[<-|[]]] Hv; [apply D; cbn; auto|]. revert v Hv. now apply in_set_false. }
    split.
    { apply FOP_app; [assumption|repeat constructor|]. intros a b Ha [<-|[]].
      destruct (same a r) eqn:Q; [|reflexivity]. apply same_size in Q. apply SA in Ha. lia. }
    intros HO. apply ordered_snoc; [auto|]. intros c Hc. apply I, HC, Hc.
Qed.

Lemma post_order_post root : exists A, post_order root = A /\
  (forall a, In a A -> reach root a) /\ (exists d, In d A /\ same root d = true) /\ distinct A /\ ordered A.
Proof.
  destruct (dfs_post root ([], [])) as (A & E & V & R & I & D & DA & O).
  { split; intros v []. }
  exists A. unfold post_order. cbn [fst snd app] in *. rewrite E in *. split; [reflexivity|]. split.
  { intros a Ha. destruct (R a Ha) as (c & [<-|[]] & H). assumption. }
  split; [apply I; cbn; auto|]. split; [assumption|]. apply O. intros [|x l1] r l2; discriminate.
Qed.

Lemma closed_complete root A : (exists d, In d A /\ region_equal root d) ->
  (forall r c, In r A -> is_child c r -> exists d, In d A /\ region_equal c d) ->
  forall r, reach root r -> exists d, In d A /\ region_equal r d.
Proof.
  intros H0 H r. induction 1 as [|r c Hr IH Hc]; [assumption|].
  destruct IH as (d & Hd & E). destruct (region_equal_child _ _ _ E Hc) as (c' & Hc' & E').
  destruct (H d c' Hd Hc') as (c2 & H2 & E2). exists c2. split; [assumption|]. eapply region_equal_trans; eauto.
Qed.

Lemma post_order_last root : exists l, post_order root = l ++ [root].
Proof.
  unfold post_order. destruct root as [s ps]. cbn [dfs fst]. cbn [in_set existsb].
  eexists. cbn [snd]. reflexivity.
Qed.

Lemma post_order_spec root :
  (forall r, In r (post_order root) -> reach root r) /\
  (forall r, reach root r -> exists d, In d (post_order root) /\ region_equal r d) /\
  (forall l1 r l2, post_order root = l1 ++ r :: l2 -> forall c, is_child c r -> exists d, In d l1 /\ region_equal c d) /\
  (exists l, post_order root = l ++ [root]).
Proof.
  pose proof (post_order_last root) as HL.
  destruct (post_order_post root) as (A & EA & R & I & D & O). rewrite EA in *.
  assert (forall l1 r l2, A = l1 ++ r :: l2 -> forall c, is_child c r -> exists d, In d l1 /\ region_equal c d) as O'.
  { intros l1 r l2 E c Hc. destruct (O l1 r l2 E c Hc) as (d & Hd & S). exists d. split; [assumption|now apply same_equal]. }
  split; [assumption|]. split; [|split; assumption].
  apply closed_complete.
  - destruct I as (d & Hd & S). exists d. split; [assumption|now apply same_equal].
  - intros r c Hr Hc. apply in_split in Hr. destruct Hr as (l1 & l2 & E). destruct (O' _ _ _ E c Hc) as (d & Hd & S).
    exists d. split; [rewrite E, in_app_iff; auto|assumption].
Qed.

(** equal regions with sorted scopes have the same hash *)
Lemma sorted_same r t : sorted_scope (r_scope r) -> sorted_scope (r_scope t) -> region_equal r t -> same r t = true.
Proof.
  intros [A1 A2] [B1 B2] H. unfold same. rewrite (proj2 (region_eqb_spec r t) H), andb_true_r.
  inversion H as [s u ps qs Q1 Q2 _]; subst. cbn in *. unfold region_hash. cbn [r_scope].
  rewrite (scope_ext s u); auto. apply Z.eqb_refl.
Qed.
Lemma FOP_impl {A} (R Q : A -> A -> Prop) l : (forall a b, In a l -> In b l -> R a b -> Q a b) ->
  ForallOrdPairs R l -> ForallOrdPairs Q l.
Proof.
  intros K H. induction H as [|x l Hx H IH]; constructor.
  - rewrite Forall_forall in *. intros b Hb. apply K; cbn; auto.
  - apply IH. intros; apply K; cbn; auto.
Qed.
Lemma distinct_sorted l : Forall (fun r => sorted_scope (r_scope r)) l -> distinct l ->
  ForallOrdPairs (fun a b => ~ region_equal a b) l.
Proof.
  intros S. rewrite Forall_forall in S. apply FOP_impl. intros a b Ha Hb E H.
  rewrite (sorted_same a b) in E; auto. discriminate.
Qed.
Lemma post_order_distinct root : (forall r, reach root r -> sorted_scope (r_scope r)) ->
  ForallOrdPairs (fun a b => ~ region_equal a b) (post_order root).
Proof.
  intros S. destruct (post_order_post root) as (A & -> & R & I & D & O).
  apply distinct_sorted; [|assumption]. apply Forall_forall. auto.
Qed.

(** the stack traversal *)
Definition ssize (l : list region) : nat := list_sum (map rsize l).
Lemma ssize_app l m : ssize (l ++ m) = ssize l + ssize m.
Proof. unfold ssize. now rewrite map_app, list_sum_app. Qed.
Lemma ssize_rev l : ssize (rev l) = ssize l.
Proof. induction l as [|x l IH]; [reflexivity|]. cbn [rev]. rewrite ssize_app, IH. change (ssize (x :: l)) with (rsize x + ssize l). change (ssize [x]) with (rsize x + 0). lia. Qed.
Lemma ssize_concat ps : ssize (concat ps) = list_sum (map (fun p => list_sum (map rsize p)) ps).
Proof. induction ps as [|p ps IH]; [reflexivity|]. cbn [concat map]. rewrite ssize_app, IH. reflexivity. Qed.
Lemma rsize_pos r : 1 <= rsize r.
Proof. destruct r; cbn; lia. Qed.
Lemma rsize_children r : rsize r = S (ssize (children_of r)).
Proof. destruct r as [s ps]. unfold children_of. cbn [rsize r_children]. now rewrite ssize_concat. Qed.
Lemma regions_loop_spec fuel root : forall stack vis, ssize stack <= fuel ->
  (forall r, In r stack \/ In r vis -> reach root r) -> distinct vis ->
  (forall r c, In r vis -> is_child c r -> exists d, (In d vis \/ In d stack) /\ region_equal c d) ->
  let out := regions_loop fuel stack vis in
  (forall r, In r out -> reach root r) /\ distinct out /\
  (forall r, In r stack \/ In r vis -> exists d, In d out /\ region_equal r d) /\
  (forall r c, In r out -> is_child c r -> exists d, In d out /\ region_equal c d).
Proof.
  induction fuel as [|fuel IH]; intros stack vis F R D C.
  - assert (stack = []) as -> by (destruct stack as [|x l]; [reflexivity|]; unfold ssize in F; cbn in F; pose proof (rsize_pos x); lia).
    cbn. split; [auto|]. split; [assumption|]. split; [intros r [[]|H]; exists r; split; [assumption|apply region_equal_refl]|].
    intros r c Hr Hc. destruct (C r c Hr Hc) as (d & [Hd|[]] & E). eauto.
  - destruct stack as [|r rest]; cbn [regions_loop].
    + split; [auto|]. split; [assumption|]. split; [intros r [[]|H]; exists r; split; [assumption|apply region_equal_refl]|].
      intros r c Hr Hc. destruct (C r c Hr Hc) as (d & [Hd|[]] & E). eauto.
    + assert (ssize (r :: rest) = rsize r + ssize rest) as SE by reflexivity. pose proof (rsize_pos r) as PS.
      destruct (in_set r vis) eqn:M.
      * apply in_set_true in M. destruct M as (t & Ht & Hs). apply same_equal in Hs.
        destruct (IH rest vis) as (O1 & O2 & O3 & O4); [lia|intros x [H|H]; apply R; cbn; auto|assumption| |].
        { intros x c Hx Hc. destruct (C x c Hx Hc) as (d & [Hd|[<-|Hd]] & E); [eauto| |eauto].
          exists t. split; [auto|]. eapply region_equal_trans; eauto. }
        split; [assumption|]. split; [assumption|]. split; [|assumption].
        intros x [[<-|Hx]|Hx]; [|auto|auto].
        destruct (O3 t (or_intror Ht)) as (d & Hd & E). exists d. split; [assumption|]. eapply region_equal_trans; eauto.
      * destruct (IH (rev (concat (r_children r)) ++ rest) (r :: vis)) as (O1 & O2 & O3 & O4).
        { rewrite ssize_app, ssize_rev. rewrite rsize_children in SE. change (concat (r_children r)) with (children_of r). lia. }
        { intros x. rewrite in_app_iff, <- in_rev. cbn [In].
          assert (reach root r) as Hr by (apply R; cbn; auto).
          intros [[H|H]|[<-|H]]; [|apply R; cbn; auto|assumption|apply R; auto].
          econstructor; [exact Hr|]. apply is_child_In. exact H. }
        { constructor; [|assumption]. apply Forall_forall. now apply in_set_false. }
        { intros x c [<-|Hx] Hc.
          - exists c. split; [|apply region_equal_refl]. right. rewrite in_app_iff, <- in_rev. left. now apply is_child_In.
          - destruct (C x c Hx Hc) as (d & [Hd|[<-|Hd]] & E); exists d || exists r; (split; [|eassumption]); cbn; auto.
            right. apply in_app_iff. auto. }
        split; [assumption|]. split; [assumption|]. split; [|assumption].
        intros x [[<-|Hx]|Hx]; apply O3; cbn; auto. left. apply in_app_iff. auto.
Qed.

Lemma regions_spec root :
  (forall r, In r (regions root) -> reach root r) /\
  (forall r, reach root r -> exists d, In d (regions root) /\ region_equal r d) /\
  ((forall r, reach root r -> sorted_scope (r_scope r)) -> ForallOrdPairs (fun a b => ~ region_equal a b) (regions root)).
Proof.
  destruct (regions_loop_spec (rsize root) root [root] []) as (O1 & O2 & O3 & O4).
  { unfold ssize; cbn. lia. }
  { intros r [[<-|[]]|[]]. constructor. }
  { constructor. }
  { intros r c []. }
  split; [exact O1|]. split.
  - apply closed_complete; [|exact O4]. apply O3. cbn. auto.
  - intros S. apply distinct_sorted; [|exact O2]. apply Forall_forall. auto.
Qed.

(** add_partition *)
Lemma add_partition_spec r rs : valid (r_scope r) -> Forall (fun c => valid (r_scope c)) rs ->
  ((exists r', add_partition r rs = Ok r') <->
   rs <> [] /\ ForallOrdPairs (fun a b => forall v, In v (query (r_scope a)) -> ~ In v (query (r_scope b))) rs /\
   forall v, In v (query (r_scope r)) <-> exists c, In c rs /\ In v (query (r_scope c))) /\
  (forall r', add_partition r rs = Ok r' -> r_scope r' = r_scope r /\ r_children r' = r_children r ++ [rs]).
Proof.
  intros Vr Vs. assert (Forall valid (map r_scope rs)) as V by (apply Forall_map; assumption).
  destruct (all_pairwise_disjoint_spec _ V) as (b & Eb & Hb).
  assert (ForallOrdPairs disjoint_scopes (map r_scope rs) <->
    ForallOrdPairs (fun a b => forall v, In v (query (r_scope a)) -> ~ In v (query (r_scope b))) rs) as HD.
  { clear. induction rs as [|x rs IH]; [split; constructor|]. cbn. split; intros H; inversion H as [|? ? F G]; subst; constructor.
    - rewrite Forall_map in F. exact F.
    - now apply IH.
    - rewrite Forall_map. exact F.
    - now apply IH. }
  unfold add_partition. rewrite Eb. cbn [bind].
  destruct b; cbn [negb].
  2:{ split; [|intros ? H; discriminate H]. split; [intros [r' H]; discriminate H|]. intros (_ & H & _). apply HD, Hb in H. discriminate. }
  destruct rs as [|x rs]; [cbn; split; [split; [intros [r' H]; discriminate H|tauto]|intros ? H; discriminate H]|].
  destruct (join_all_ok (map r_scope (x :: rs))) as (s & Es & Vs' & Q & _); [discriminate|assumption|].
  rewrite Es. cbn [bind].
  assert (forall v, In v (query s) <-> exists c, In c (x :: rs) /\ In v (query (r_scope c))) as Q'.
  { intros v. rewrite Q. split.
    - intros (t & Ht & Hv). apply in_map_iff in Ht. destruct Ht as (c & <- & Hc). eauto.
    - intros (c & Hc & Hv). exists (r_scope c). split; [now apply in_map|assumption]. }
  destruct (equal_query s (r_scope r)) eqn:EQ; cbn [negb]; unfold equal_query in EQ.
  - split.
    + split; [intros _|intros _; eexists; reflexivity]. split; [discriminate|]. split; [apply HD, Hb; reflexivity|].
      intros v. rewrite <- Q'. symmetry. revert v. now apply set_eqb_spec.
    + intros r' H. injection H as <-. split; reflexivity.
  - split; [|intros ? H; discriminate H]. split; [intros [r' H]; discriminate H|]. intros (_ & _ & H).
    assert (set_eqb (query s) (query (r_scope r)) = true); [|congruence].
    apply set_eqb_spec. intros v. now rewrite Q', H.
Qed.

(** two equal regions listed by both traversals *)
Definition bad_root : region := Region (mkScope [0; 1; 2] [])
  [[Region (mkScope [0; 1] []) []; Region (mkScope [2] []) []]; [Region (mkScope [1; 0] []) []; Region (mkScope [2] []) []]].
Lemma bad_post_order : post_order bad_root =
  [Region (mkScope [0; 1] []) []; Region (mkScope [2] []) []; Region (mkScope [1; 0] []) []; bad_root].
Proof. vm_compute. reflexivity. Qed.
