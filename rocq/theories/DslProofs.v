(** Proofs about the DSL model. *)
From Coq Require Import List Arith Bool Lia Lra.
From Verif Require Import Base ScopeModel ScopeProofs CircuitModel CircuitSpec CircuitBasics CircuitEval CircuitProps MargModel MargProofs SignedModel SignedProofs CnetModel CnetProofs LearnMain PromTop DslModel DslSpec.
Import ListNotations.
Local Open Scope R_scope.

Lemma expr_ind' (P : expr -> Prop) :
  (forall m, P (ETerm m)) -> (forall fs, Forall P fs -> P (EProd fs)) -> (forall w e, P e -> P (EWtd w e)) ->
  (forall ts : list (R * expr), Forall P (map snd ts) -> P (ESum ts)) -> forall e, P e.
Proof.
  intros HT HP HW HS. fix IH 1. intros [m|fs|w e|ts].
  - apply HT.
  - apply HP. induction fs as [|f fs IHf]; constructor; [apply IH|exact IHf].
  - apply HW, IH.
  - apply HS. induction ts as [|[w f] ts IHf]; constructor; [apply IH|exact IHf].
Qed.

Lemma one_value_spec l : one_value l = true <-> l <> [] /\ forall x y, In x l -> In y l -> x = y.
Proof.
  unfold one_value. rewrite Nat.eqb_eq. pose proof (NoDup_nodup Nat.eq_dec l) as ND.
  pose proof (nodup_In Nat.eq_dec l) as HI. destruct (nodup Nat.eq_dec l) as [|a [|b k]] eqn:E; cbn.
  - split; [lia|]. intros [H _]. destruct l as [|x l]; [congruence|]. exfalso. apply (HI x). now left.
  - split; [intros _|lia]. split; [intros ->; discriminate|]. intros x y Hx Hy. apply HI in Hx, Hy. destruct Hx as [<-|[]], Hy as [<-|[]]. reflexivity.
  - split; [lia|]. intros [_ H]. exfalso. assert (a = b) as -> by (apply H; apply HI; cbn; auto). inversion ND as [|? ? N _]. apply N. now left.
Qed.

Lemma evar_prod fs v : evar (EProd fs) v <-> exists f, In f fs /\ evar f v.
Proof.
  cbn [evar]. induction fs as [|f fs IH]; [split; [intros []|intros (? & [] & _)]|]. rewrite IH. split.
  - intros [H|(g & Hg & H)]; [exists f|exists g]; split; auto; [now left|now right].
  - intros (g & [<-|Hg] & H); [now left|right; eauto].
Qed.
Lemma eevid_prod fs v : eevid (EProd fs) v <-> (exists f, In f fs /\ eevid f v) /\ ~ evar (EProd fs) v.
Proof.
  cbn [eevid]. apply and_iff_compat_r. induction fs as [|f fs IH]; [split; [intros []|intros (? & [] & _)]|]. rewrite IH. split.
  - intros [H|(g & Hg & H)]; [exists f|exists g]; split; auto; [now left|now right].
  - intros (g & [<-|Hg] & H); [now left|right; eauto].
Qed.
Lemma emods_prod fs : emods (EProd fs) = flat_map emods fs.
Proof. cbn [emods]. induction fs as [|f fs IH]; [reflexivity|]. cbn. now rewrite IH. Qed.
Lemma emods_sum ts : emods (ESum ts) = flat_map emods (map snd ts).
Proof. cbn [emods]. induction ts as [|[w f] ts IH]; [reflexivity|]. cbn. now rewrite IH. Qed.
Lemma forall_flat_map {A B} (P : B -> Prop) (f : A -> list B) l : Forall P (flat_map f l) <-> Forall (fun a => Forall P (f a)) l.
Proof. induction l as [|a l IH]; cbn; [split; constructor|]. rewrite Forall_app, IH. split; [intros [? ?]; now constructor|inversion 1; now split]. Qed.

Definition matches (e : expr) (m : module) : Prop :=
  built m /\ out_shape m = eshape e /\
  (forall v, In v (query (scope_of m)) <-> evar e v) /\ (forall v, In v (evidence (scope_of m)) <-> eevid e v).

Lemma map_mapR {A B C} (g : A -> result B) (h : C -> A) l : mapR (fun t => g (h t)) l = mapR g (map h l).
Proof.
  induction l as [|a l IH]; [reflexivity|]. change (mapR (fun t => g (h t)) (a :: l)) with (bind (g (h a)) (fun b => bind (mapR (fun t => g (h t)) l) (fun bs => Ok (b :: bs)))).
  rewrite IH. reflexivity.
Qed.

(** the classes of the children seen through [matches] *)
Lemma forall2_same {A B C} (P : A -> B -> Prop) (f : A -> C) (g : B -> C) l l' : Forall2 P l l' -> (forall a b, P a b -> g b = f a) -> map g l' = map f l.
Proof. induction 1 as [|a b l l' H _ IH]; intros HP; [reflexivity|]. cbn. f_equal; auto. Qed.
Lemma same_map {A B} (f : A -> B) l : same f l <-> (forall x y, In x (map f l) -> In y (map f l) -> x = y).
Proof.
  split.
  - intros H x y Hx Hy. apply in_map_iff in Hx, Hy. destruct Hx as (a & <- & Ha), Hy as (b & <- & Hb). now apply H.
  - intros H x y Hx Hy. apply H; now apply in_map.
Qed.
Lemma FOP_F2 {A B} (P : A -> B -> Prop) (Q : A -> A -> Prop) (Q' : B -> B -> Prop) l l' :
  Forall2 P l l' -> (forall a a' b b', P a b -> P a' b' -> (Q a a' <-> Q' b b')) -> (ForallOrdPairs Q l <-> ForallOrdPairs Q' l').
Proof.
  intros F HQ. induction F as [|a b l l' H F IH]; [split; constructor|].
  assert (Forall (Q a) l <-> Forall (Q' b) l') as HF.
  { clear IH. induction F as [|a' b' l l' H' F IH]; [split; constructor|]. split; inversion 1; subst; constructor; try (now apply (HQ a a' b b')); now apply IH. }
  split; inversion 1; subst; constructor; now (apply HF || apply IH).
Qed.
Lemma in_F2_r {A B} (P : A -> B -> Prop) l l' b : Forall2 P l l' -> In b l' -> exists a, In a l /\ P a b.
Proof. induction 1 as [|x y l l' H _ IH]; [intros []|]. intros [<-|Hb]; [exists x; split; [now left|auto]|]. destruct (IH Hb) as (a & Ha & Hp). exists a. split; [now right|auto]. Qed.
Lemma in_F2_l {A B} (P : A -> B -> Prop) l l' a : Forall2 P l l' -> In a l -> exists b, In b l' /\ P a b.
Proof. induction 1 as [|x y l l' H _ IH]; [intros []|]. intros [<-|Hb]; [exists y; split; [now left|auto]|]. destruct (IH Hb) as (b & Ha & Hp). exists b. split; [now right|auto]. Qed.

Lemma validate_product_iff fs ms : Forall2 matches fs ms ->
  (validate_product ms = Ok tt <->
   (2 <= length fs)%nat /\ ForallOrdPairs (fun a b => forall v, evar a v -> ~ evar b v) fs /\
   same (fun e => channels (eshape e)) fs /\ same (fun e => repetitions (eshape e)) fs).
Proof.
  intros F. unfold validate_product. pose proof (Forall2_len _ _ _ F) as L.
  assert (HV : Forall valid (map scope_of ms)).
  { apply Forall_map, Forall_forall. intros m Hm. destruct (in_F2_r _ _ _ _ F Hm) as (e & _ & B & _). apply (wf_scope m (wf_wf1 _ (built_wf _ B))). }
  destruct (all_pairwise_disjoint_spec _ HV) as (b & -> & Hb). cbn [bind].
  assert (HD : ForallOrdPairs (fun a b => forall v, evar a v -> ~ evar b v) fs <-> b = true).
  { rewrite Hb. assert (ForallOrdPairs disjoint_scopes (map scope_of ms) <-> ForallOrdPairs (fun a b => disjoint_scopes (scope_of a) (scope_of b)) ms) as ->.
    { clear. induction ms as [|m ms IH]; [split; constructor|]. cbn [map]. split; inversion 1; subst; constructor; try (now apply IH); now apply Forall_map. }
    apply (FOP_F2 matches); [exact F|]. intros a a' m m' (_ & _ & H & _) (_ & _ & H' & _). unfold disjoint_scopes. split; intros G v; [rewrite H, H'|rewrite <- H, <- H']; apply G. }
  rewrite HD, !same_map.
  rewrite (forall2_same _ (fun e => channels (eshape e)) (fun m => channels (out_shape m)) _ _ F) by (intros a m (_ & -> & _); reflexivity).
  rewrite (forall2_same _ (fun e => repetitions (eshape e)) (fun m => repetitions (out_shape m)) _ _ F) by (intros a m (_ & -> & _); reflexivity).
  destruct (Nat.ltb_spec (length ms) 2) as [H|H]; [split; [discriminate|intros (? & _); lia]|].
  assert (NE : fs <> []) by (intros ->; cbn in L; lia).
  destruct b; cbn [negb]; [|split; [discriminate|intros (_ & ? & _); discriminate]].
  assert (HO : forall g : expr -> nat, one_value (map g fs) = true <-> (forall x y, In x (map g fs) -> In y (map g fs) -> x = y)).
  { intros g. rewrite one_value_spec. split; [tauto|]. intros K. split; [|exact K]. intros Z. apply map_eq_nil in Z. congruence. }
  rewrite <- !HO. destruct (one_value _) eqn:E1; cbn [negb]; [|split; [discriminate|intros (_ & _ & ? & _); discriminate]].
  destruct (one_value (map (fun e => repetitions _) fs)) eqn:E2; cbn [negb]; [|split; [discriminate|intros (_ & _ & _ & ?); discriminate]].
  split; [intros _|reflexivity]. split; [lia|auto].
Qed.

Lemma validate_sum_iff fs ms : Forall2 matches fs ms ->
  (validate_sum ms = Ok tt <->
   (2 <= length fs)%nat /\
   (forall a b, In a fs -> In b fs -> forall v, (evar a v <-> evar b v) /\ (eevid a v <-> eevid b v)) /\
   same (fun e => features (eshape e)) fs /\ Forall (fun e => channels (eshape e) = 1%nat) fs /\ same (fun e => repetitions (eshape e)) fs).
Proof.
  intros F. unfold validate_sum. pose proof (Forall2_len _ _ _ F) as L.
  assert (HD : (forall a b, In a fs -> In b fs -> forall v, (evar a v <-> evar b v) /\ (eevid a v <-> eevid b v)) <-> all_equal (map scope_of ms) = true).
  { rewrite all_equal_spec. split.
    - intros H s t Hs Ht. apply in_map_iff in Hs, Ht. destruct Hs as (a & <- & Ha), Ht as (b & <- & Hb).
      destruct (in_F2_r _ _ _ _ F Ha) as (e & He & _ & _ & Q & Ev), (in_F2_r _ _ _ _ F Hb) as (e' & He' & _ & _ & Q' & Ev').
      apply scope_eqb_spec. split; intros v; [rewrite Q, Q'|rewrite Ev, Ev']; now apply H.
    - intros H a b Ha Hb v. destruct (in_F2_l _ _ _ _ F Ha) as (m & Hm & _ & _ & Q & Ev), (in_F2_l _ _ _ _ F Hb) as (m' & Hm' & _ & _ & Q' & Ev').
      specialize (H (scope_of m) (scope_of m') ltac:(now apply in_map) ltac:(now apply in_map)). apply scope_eqb_spec in H. destruct H as [H1 H2].
      rewrite <- Q, <- Q', <- Ev, <- Ev'. auto. }
  rewrite HD, !same_map.
  rewrite (forall2_same _ (fun e => channels (eshape e)) (fun m => channels (out_shape m)) _ _ F) by (intros a m (_ & -> & _); reflexivity).
  rewrite (forall2_same _ (fun e => repetitions (eshape e)) (fun m => repetitions (out_shape m)) _ _ F) by (intros a m (_ & -> & _); reflexivity).
  rewrite (forall2_same _ (fun e => features (eshape e)) (fun m => features (out_shape m)) _ _ F) by (intros a m (_ & -> & _); reflexivity).
  destruct (Nat.ltb_spec (length ms) 2) as [H|H]; [split; [discriminate|intros (? & _); lia]|].
  assert (NE : fs <> []) by (intros ->; cbn in L; lia).
  destruct (all_equal _); cbn [negb]; [|split; [discriminate|intros (_ & ? & _); discriminate]].
  assert (HO : forall g : expr -> nat, one_value (map g fs) = true <-> (forall x y, In x (map g fs) -> In y (map g fs) -> x = y)).
  { intros g. rewrite one_value_spec. split; [tauto|]. intros K. split; [|exact K]. intros Z. apply map_eq_nil in Z. congruence. }
  assert (HC : Forall (fun e => channels (eshape e) = 1%nat) fs <-> (one_value (map (fun e => channels (eshape e)) fs) && forallb (Nat.eqb 1) (map (fun e => channels (eshape e)) fs) = true)).
  { rewrite andb_true_iff, HO, forallb_forall, Forall_forall. split.
    - intros K. split; [intros x y Hx Hy|intros x Hx]; [apply in_map_iff in Hx, Hy; destruct Hx as (a & <- & Ha), Hy as (b & <- & Hb); now rewrite (K a Ha), (K b Hb)|].
      apply in_map_iff in Hx. destruct Hx as (a & <- & Ha). now rewrite (K a Ha).
    - intros [_ K] x Hx. symmetry. apply Nat.eqb_eq, K. now apply (in_map (fun e => channels (eshape e))). }
  rewrite HC, <- !HO. destruct (one_value (map (fun e => features _) fs)) eqn:E1; cbn [negb]; [|split; [discriminate|intros (_ & _ & ? & _); discriminate]].
  destruct (_ && _) eqn:E2; cbn [negb]; [|split; [discriminate|intros (_ & _ & _ & ? & _); discriminate]].
  destruct (one_value (map (fun e => repetitions _) fs)) eqn:E3; cbn [negb]; [|split; [discriminate|intros (_ & _ & _ & _ & ?); discriminate]].
  split; [intros _|reflexivity]. split; [lia|auto].
Qed.

Lemma make_weights_ok ws f r : ws <> [] -> (forall w, In w ws -> 0 < w) ->
  make_sum_weights ws f r = Ok (mkW f (length ws) 1 r (fun _ i _ _ => nth i ws 0 / lsumR ws)).
Proof.
  intros NE H. unfold make_sum_weights. destruct (existsb _ ws) eqn:E.
  { apply existsb_exists in E. destruct E as (w & Hw & E). apply rleb_spec in E. specialize (H w Hw). lra. }
  destruct (rleb _ 0) eqn:E'; [|reflexivity]. apply rleb_spec in E'. pose proof (lsumR_pos ws NE H). lra.
Qed.
Lemma make_weights_pos ws f r w : make_sum_weights ws f r = Ok w -> forall a, In a ws -> 0 < a.
Proof.
  unfold make_sum_weights. destruct (existsb _ ws) eqn:E; [discriminate|]. intros _ a Ha.
  destruct (Rlt_dec 0 a) as [|N]; [assumption|]. exfalso. assert (existsb (fun w => rleb w 0) ws = true); [|congruence].
  apply existsb_exists. exists a. split; [assumption|]. apply rleb_spec. lra.
Qed.

(** the module a mixture builds *)
Definition mix_weights (ws : list R) f r : wtensor := mkW f (length ws) 1 r (fun _ i _ _ => nth i ws 0 / lsumR ws).

Lemma nsum_ones l : Forall (fun m => channels (out_shape m) = 1%nat) l -> nsum (map (fun c => channels (out_shape c)) l) = length l.
Proof. induction 1 as [|x l H _ IH]; [reflexivity|]. cbn [map nsum length]. lia. Qed.

Lemma mix_built (ws : list R) ms : length ws = length ms -> (2 <= length ms)%nat -> (forall w, In w ws -> 0 < w) ->
  Forall built ms -> validate_sum ms = Ok tt -> forall m0, hd_error ms = Some m0 ->
  let inp := MCat true (scope_of m0) ms in
  let m := MSum inp 1 (repetitions (out_shape m0)) (fun f i o r => ln (wv (mix_weights ws (features (out_shape m0)) (repetitions (out_shape m0))) f i o r)) in
  sum_inputs ms = Ok inp /\ mk_sum_w inp 1 1 (W4 (mix_weights ws (features (out_shape m0)) (repetitions (out_shape m0)))) = Ok m /\ built m /\
  out_shape m = mkShape (features (out_shape m0)) 1 (repetitions (out_shape m0)).
Proof.
  intros LW L WP B V m0 E0. destruct ms as [|m0' ms]; [discriminate|]. cbn in E0. injection E0 as ->. cbn zeta.
  set (l := m0 :: ms) in *. unfold validate_sum in V. destruct (Nat.ltb_spec (length l) 2); [lia|].
  destruct (all_equal (map scope_of l)) eqn:AE; cbn [negb] in V; [|discriminate].
  destruct (one_value (map (fun m => features _) l)) eqn:OF; cbn [negb] in V; [|discriminate].
  destruct (_ && _) eqn:OC; cbn [negb] in V; [|discriminate].
  apply andb_true_iff in OC. destruct OC as [_ OC]. rewrite forallb_forall in OC.
  assert (C1 : Forall (fun m => channels (out_shape m) = 1%nat) l).
  { apply Forall_forall. intros m Hm. symmetry. apply Nat.eqb_eq, OC. now apply (in_map (fun m => channels (out_shape m))). }
  apply one_value_spec in OF. destruct OF as [_ OF]. rewrite all_equal_spec in AE.
  assert (EC : mk_cat true l = Ok (MCat true (scope_of m0) l)).
  { apply mk_cat_true_intro.
    - intros c Hc. apply OF; [now apply (in_map (fun m => features (out_shape m)))|now left].
    - intros c c' Hc Hc'. apply AE; now apply in_map. }
  assert (ES : sum_inputs l = Ok (MCat true (scope_of m0) l)).
  { unfold sum_inputs. destruct ms; [cbn in L; lia|]. exact EC. }
  assert (CH : channels (out_shape (MCat true (scope_of m0) l)) = length l).
  { cbn [out_shape channels]. rewrite map_map. now apply nsum_ones. }
  assert (FE : features (out_shape (MCat true (scope_of m0) l)) = features (out_shape m0)) by reflexivity.
  assert (NE : ws <> []) by (intros ->; cbn in LW; lia).
  pose proof (lsumR_pos ws NE WP) as TP.
  set (W := mix_weights ws (features (out_shape m0)) (repetitions (out_shape m0))).
  assert (EM : mk_sum_w (MCat true (scope_of m0) l) 1 1 (W4 W) = Ok (MSum (MCat true (scope_of m0) l) 1 (repetitions (out_shape m0)) (fun f i o r => ln (wv W f i o r)))).
  { change (mk_sum_w (MCat true (scope_of m0) l) 1 1 (W4 W) = Ok (MSum (MCat true (scope_of m0) l) (wO W) (wR W) (fun f i o r => ln (wv W f i o r)))).
    apply mk_sum_w_intro.
    - cbn. lia.
    - cbn [wF W mix_weights]. now rewrite FE.
    - rewrite CH. cbn [wI W mix_weights]. exact LW.
    - intros f i o r _ Hi _ _. cbn [wv wI W mix_weights] in *. apply Rdiv_lt_0_compat; [|exact TP]. apply WP. now apply nth_In.
    - intros f o r _ _ _. cbn [wv wI W mix_weights]. rewrite bsum_div, <- lsumR_nth. field. lra. }
  split; [exact ES|]. split; [exact EM|]. split; [|reflexivity].
  apply (b_sum_w (MCat true (scope_of m0) l) 1 1 (W4 W)); [|exact EM]. apply (b_cat true l); assumption.
Qed.

Lemma product_built ms : (2 <= length ms)%nat -> Forall built ms -> validate_product ms = Ok tt ->
  exists sc, mk_product ms = Ok (MProduct (MCat false sc ms)) /\ built (MProduct (MCat false sc ms)) /\ join_all (map scope_of ms) = Ok sc.
Proof.
  intros L B V. destruct ms as [|m0 ms]; [cbn in L; lia|]. set (l := m0 :: ms) in *. unfold validate_product in V.
  destruct (Nat.ltb_spec (length l) 2); [lia|].
  destruct (all_pairwise_disjoint (map scope_of l)) as [b|] eqn:AD; cbn [bind] in V; [|discriminate]. destruct b; cbn [negb] in V; [|discriminate].
  destruct (one_value (map (fun m => channels _) l)) eqn:OC; cbn [negb] in V; [|discriminate]. apply one_value_spec in OC. destruct OC as [_ OC].
  assert (HV : Forall valid (map scope_of l)).
  { apply Forall_map. eapply Forall_impl; [|exact B]. intros m Bm. apply (wf_scope m (wf_wf1 _ (built_wf _ Bm))). }
  destruct (join_all_ok (map scope_of l)) as (sc & EJ & _); [discriminate|exact HV|].
  exists sc. assert (EM : mk_product l = Ok (MProduct (MCat false sc l))).
  { unfold mk_product, l. destruct ms as [|m1 ms]; [cbn in L; lia|]. fold l. unfold mk_cat. unfold l at 1.
    assert (forallb (fun c => Nat.eqb (channels (out_shape c)) (channels (out_shape m0))) l = true) as ->.
    { apply forallb_forall. intros c Hc. apply Nat.eqb_eq. apply OC; [now apply (in_map (fun m => channels (out_shape m)))|now left]. }
    rewrite AD. cbn [bind]. rewrite EJ. reflexivity. }
  split; [exact EM|]. split; [|exact EJ]. now apply (b_product l).
Qed.
