(** Proofs on the APC objective and trainer. *)
From Coq Require Import List Arith Bool Reals Lra Lia.
From Verif Require Import Base ApcTrainModel ApcTrainSpec.
Import ListNotations.
Local Open Scope R_scope.

Lemma clog_cut u : clog u = cut_log u.
Proof.
  unfold clog, cut_log. pose proof (exp_pos (-100)). destruct (Rle_dec u 0) as [A|A], (Rle_dec u (exp (-100))) as [B|B]; try reflexivity; [lra| |].
  - apply Rmax_right. rewrite <- (ln_exp (-100)). destruct B as [B| ->]; [left; apply ln_increasing; lra|right; reflexivity].
  - apply Rmax_left. rewrite <- (ln_exp (-100)). left. apply ln_increasing; lra.
Qed.
Lemma bsum_first (n : nat) (f : nat -> R) : bsum (Datatypes.S n) f = f 0%nat + bsum n (fun i => f (Datatypes.S i)).
Proof. induction n as [|n IH]; [cbn; ring|]. change (bsum (Datatypes.S (Datatypes.S n)) f) with (bsum (Datatypes.S n) f + f (Datatypes.S n)). rewrite IH. cbn [bsum]. ring. Qed.
Lemma rec_error_eq (b : bool) (x y : list R) : length x = length y -> (if b then bce_err y x else sq_err y x) = rec_error b x y.
Proof.
  unfold rec_error. revert y. induction x as [|u x IH]; intros [|v y] E; try discriminate; [now destruct b|].
  injection E as E. cbn [length]. rewrite bsum_first. cbn [nth]. specialize (IH y E).
  destruct b; rewrite <- IH; cbn [bce_err sq_err]; rewrite ?clog_cut; ring.
Qed.
(** [sample_terms] with the model's own sums *)
Definition sample_terms0 {X Z} (c : apc_config) (n : apc_net X Z) (x : X) (t : terms) : Prop :=
  let e := enc _ _ n x in
  (0 < w_kld c \/ decode_mpe c = true -> e_stats _ e <> None) /\
  (if Rlt_dec 0 (w_rec c) then
     exists z, (if decode_mpe c then exists k, e_stats _ e = Some (k, z) else z = e_z _ e) /\
       fits_target (rec_bce c) (flat _ _ n x) (dec _ _ n z) /\
       t_rec t = if rec_bce c then bce_err (dec _ _ n z) (flat _ _ n x) else sq_err (dec _ _ n z) (flat _ _ n x)
   else t_rec t = 0) /\
  (if Rlt_dec 0 (w_kld c) then exists z, e_stats _ e = Some (t_kld t, z) else t_kld t = 0) /\
  (t_nll t = if Rlt_dec 0 (w_nll c) then - (if nll_joint c then joint_ll _ _ n x (e_z _ e) else marg_ll _ _ n x) else 0).
Lemma sample_terms_eq {X Z} (c : apc_config) (n : apc_net X Z) x t : sample_terms0 c n x t <-> sample_terms c n x t.
Proof.
  unfold sample_terms0, sample_terms. cbv zeta. destruct (Rlt_dec 0 (w_rec c)) as [W|W]; [|reflexivity].
  split; intros (A & (z & B & C & E) & D); (split; [exact A|]); (split; [|exact D]); exists z; (split; [exact B|]); (split; [exact C|]); destruct C as [C _];
    pose proof (rec_error_eq (rec_bce c) _ _ C); congruence.
Qed.

Section Obj.
  Variables X Z : Type.
  Variable c : apc_config.
  Variable n : apc_net X Z.
  Notation enc' := (enc X Z n).

  (** executable version of [sample_terms] *)
  Definition row_terms (x : X) : result terms :=
    let e := enc' x in
    if ((pos (w_kld c) || decode_mpe c) && match e_stats _ e with None => true | _ => false end)%bool then Err
    else
      match (if pos (w_rec c) then
               let y := dec _ _ n (if decode_mpe c then match e_stats _ e with Some s => snd s | None => e_z _ e end else e_z _ e) in
               if negb (Nat.eqb (length (flat _ _ n x)) (length y)) then Err
               else if (rec_bce c && negb (in01 (flat _ _ n x) && in01 y))%bool then Err
               else Ok (if rec_bce c then bce_err y (flat _ _ n x) else sq_err y (flat _ _ n x))
             else Ok 0) with
      | Err => Err
      | Ok r => Ok (mkTerms r
                      (if pos (w_kld c) then match e_stats _ e with Some s => fst s | None => 0 end else 0)
                      (if pos (w_nll c) then - (if nll_joint c then joint_ll _ _ n x (e_z _ e) else marg_ll _ _ n x) else 0))
      end.

  Fixpoint all_rows (xs : list X) : result (list terms) :=
    match xs with
    | [] => Ok []
    | x :: r => match row_terms x, all_rows r with Ok t, Ok ts => Ok (t :: ts) | _, _ => Err end
    end.

  Lemma all_rows_app a b : all_rows (a ++ b) =
    match all_rows a, all_rows b with Ok u, Ok v => Ok (u ++ v) | _, _ => Err end.
  Proof.
    induction a as [|x a IH]; cbn; [destruct (all_rows b); reflexivity|].
    destruct (row_terms x); [|reflexivity]. rewrite IH. destruct (all_rows a), (all_rows b); reflexivity.
  Qed.
  Lemma all_rows_length xs ts : all_rows xs = Ok ts -> length ts = length xs.
  Proof.
    revert ts. induction xs as [|x xs IH]; cbn; intros ts E; [now injection E as <-|].
    destruct (row_terms x); [|discriminate]. destruct (all_rows xs); [|discriminate]. injection E as <-. cbn. now rewrite (IH _ eq_refl).
  Qed.

  Definition pieces (xs : list X) : result (R * R * R) :=
    let need := (pos (w_kld c) || decode_mpe c)%bool in
    let es := map enc' xs in
    match (if need then match all_stats _ es with Some s => Ok (Some s) | None => Err end else Ok None) with
    | Err => Err
    | Ok stats =>
      match (if pos (w_rec c)
               then rec_sum c (map (flat _ _ n) xs) (map (dec _ _ n)
                      (if decode_mpe c then match stats with Some s => map snd s | None => [] end else map (e_z _) es))
               else Ok 0) with
      | Err => Err
      | Ok r => Ok (r, if pos (w_kld c) then match stats with Some s => lsumR (map fst s) | None => 0 end else 0,
                    if pos (w_nll c) then - lsumR (if nll_joint c then map (fun p => joint_ll _ _ n (fst p) (snd p)) (combine xs (map (e_z _) es))
                                     else map (marg_ll _ _ n) xs) else 0)
      end
    end.

  Lemma pieces_rows xs : pieces xs = match all_rows xs with
    | Ok ts => Ok (lsumR (map t_rec ts), lsumR (map t_kld ts), lsumR (map t_nll ts)) | Err => Err end.
  Proof.
    induction xs as [|x xs IH].
    - unfold pieces. cbn. destruct (pos (w_kld c)), (decode_mpe c), (pos (w_rec c)), (pos (w_nll c)), (nll_joint c); cbn; rewrite ?Ropp_0; reflexivity.
    - cbn [all_rows]. unfold row_terms. revert IH. unfold pieces. cbn [map all_stats combine fst snd].
      destruct (all_rows xs) as [ts|]; cbn [negb].
      + destruct (pos (w_kld c)) eqn:Ek, (decode_mpe c) eqn:Ed; cbn [orb andb].
        all: destruct (e_stats Z (enc' x)) as [[k zd]|] eqn:Es, (all_stats Z (map enc' xs)) as [st|] eqn:Ea; cbn [map fst snd].
        all: intros IH; try discriminate IH; try reflexivity.
        all: destruct (pos (w_rec c)) eqn:Er; cbn [rec_sum].
        all: try (destruct (Nat.eqb _ _); cbn [negb]; [|reflexivity]).
        all: try (destruct (rec_bce c && negb (in01 _ && in01 _))%bool; [reflexivity|]).
        all: try (match type of IH with match ?r with _ => _ end = _ => destruct r as [s|]; [|discriminate IH] end).
        all: injection IH as I1 I2 I3; cbn [map lsumR t_rec t_kld t_nll].
        all: match goal with |- Ok (?a, ?b, ?d) = Ok (?a', ?b', ?d') => assert (a = a' /\ b = b' /\ d = d') as (Q1 & Q2 & Q3); [|congruence] end.
        all: split; [lra|split; [lra|]].
        all: clear I1 I2; destruct (pos (w_nll c)), (nll_joint c); cbn [map lsumR] in *; lra.
      + destruct (pos (w_kld c)) eqn:Ek, (decode_mpe c) eqn:Ed; cbn [orb andb].
        all: destruct (e_stats Z (enc' x)) as [[k zd]|] eqn:Es, (all_stats Z (map enc' xs)) as [st|] eqn:Ea; cbn [map fst snd].
        all: intros IH; try discriminate IH; try reflexivity.
        all: destruct (pos (w_rec c)) eqn:Er; cbn [rec_sum]; try discriminate IH.
        all: repeat match goal with
             | |- context [negb (Nat.eqb ?a ?b)] => destruct (Nat.eqb a b); cbn [negb]
             | |- context [(rec_bce c && negb (in01 ?a && in01 ?b))%bool] => destruct (rec_bce c && negb (in01 a && in01 b))%bool
             end; try reflexivity.
        all: match type of IH with match ?r with _ => _ end = _ => destruct r as [s|]; [discriminate IH|] end; reflexivity.
  Qed.

  Lemma loss_pieces xs : xs <> [] -> loss_components X Z c n xs = match pieces xs with
    | Ok (r, k, l) => let B := INR (length xs) in
        Ok (mkMetrics (r / B) (k / B) (l / B) (w_rec c * (r / B) + w_kld c * (k / B) + w_nll c * (l / B)))
    | Err => Err end.
  Proof.
    intros H. unfold loss_components, pieces. destruct (Nat.eqb_spec (length xs) 0) as [E|N]; [destruct xs; [congruence|discriminate]|].
    assert (INR (length xs) <> 0) as NB by now apply not_0_INR.
    destruct (if (pos (w_kld c) || decode_mpe c)%bool then _ else _) as [stats|]; [|reflexivity].
    destruct (pos (w_rec c)).
    - destruct (rec_sum _ _ _) as [s|]; [|reflexivity].
      destruct (pos (w_kld c)), stats, (pos (w_nll c)); cbv beta iota zeta; repeat f_equal; field; assumption.
    - destruct (pos (w_kld c)), stats, (pos (w_nll c)); cbv beta iota zeta; repeat f_equal; field; assumption.
  Qed.

  Lemma loss_rows xs : xs <> [] -> loss_components X Z c n xs = match all_rows xs with
    | Ok ts => Ok (metrics_of c ts) | Err => Err end.
  Proof.
    intros H. rewrite loss_pieces, pieces_rows by assumption. destruct (all_rows xs) as [ts|] eqn:E; [|reflexivity].
    apply all_rows_length in E. unfold metrics_of, mean. rewrite !map_length, E. reflexivity.
  Qed.

  (** ** [row_terms] is [sample_terms] *)
  Lemma pos_spec w : pos w = true <-> 0 < w.
  Proof. unfold pos. destruct (Rlt_dec 0 w); split; intros; try lra; congruence. Qed.
  Lemma in01_spec l : in01 l = true <-> forall u, In u l -> 0 <= u <= 1.
  Proof.
    unfold in01. rewrite forallb_forall. split; intros H u Hu; specialize (H u Hu).
    - destruct (Rle_dec 0 u), (Rle_dec u 1); try discriminate. lra.
    - destruct (Rle_dec 0 u), (Rle_dec u 1); auto; lra.
  Qed.
  Lemma fits_spec b x y : fits_target b x y <-> negb (Nat.eqb (length x) (length y)) = false /\ (b && negb (in01 x && in01 y))%bool = false.
  Proof.
    unfold fits_target. rewrite negb_false_iff, Nat.eqb_eq, <- (in01_spec x), <- (in01_spec y).
    destruct b, (in01 x), (in01 y); cbn; intuition congruence.
  Qed.

  Lemma row_terms_spec0 x t : row_terms x = Ok t <-> sample_terms0 c n x t.
  Proof.
    unfold row_terms, sample_terms0. destruct t as [tr tk tn]. cbn [t_rec t_kld t_nll].
    pose proof (pos_spec (w_kld c)) as Pk. pose proof (pos_spec (w_rec c)) as Pr. pose proof (pos_spec (w_nll c)) as Pn.
    destruct (Rlt_dec 0 (w_kld c)) as [Lk|Lk]; [rewrite (proj2 Pk Lk)|assert (pos (w_kld c) = false) as -> by (apply not_true_is_false; tauto)].
    all: destruct (Rlt_dec 0 (w_rec c)) as [Lr|Lr]; [rewrite (proj2 Pr Lr)|assert (pos (w_rec c) = false) as -> by (apply not_true_is_false; tauto)].
    all: destruct (Rlt_dec 0 (w_nll c)) as [Ln|Ln]; [rewrite (proj2 Pn Ln)|assert (pos (w_nll c) = false) as -> by (apply not_true_is_false; tauto)].
    all: clear Pk Pr Pn.
    all: destruct (decode_mpe c), (e_stats Z (enc' x)) as [[k zd]|] eqn:Es; cbn [orb andb fst snd].
    all: try (split; [discriminate|]; intros (A & _); exfalso; apply A; [tauto|reflexivity]).
    all: match goal with
         | |- context [negb (Nat.eqb ?a ?b)] => idtac
         | |- _ => split; [intros E; injection E as <- <- <-; repeat split; try congruence; try (eexists; reflexivity); intuition congruence
                          |intros (A & B & C & D); subst; try (destruct C as [z C]; injection C as <- <-); reflexivity]
         end.
    all: match goal with |- context [negb (Nat.eqb (length ?a) (length ?b))] => pose proof (fits_spec (rec_bce c) a b) as F end.
    all: split.
    all: try (intros E; destruct (negb (Nat.eqb _ _)); [discriminate|]; destruct (rec_bce c && _)%bool; [discriminate|];
              injection E as <- <- <-; split; [intuition congruence|]; split;
              [eexists; split; [first [eexists; reflexivity|reflexivity]|split; [apply F; auto|reflexivity]]|];
              split; [first [reflexivity|eexists; reflexivity]|reflexivity]).
    all: intros (A & (z & B1 & B2 & B3) & C & D).
    all: try (destruct B1 as [k' B1]; injection B1 as <- <-); try subst z.
    all: apply F in B2; destruct B2 as [-> ->]; try (destruct C as [z' C]; injection C as <- <-); subst; reflexivity.
  Qed.

  Lemma row_terms_spec x t : row_terms x = Ok t <-> sample_terms c n x t.
  Proof. rewrite row_terms_spec0. apply sample_terms_eq. Qed.

  Lemma all_rows_spec xs ts : all_rows xs = Ok ts <-> Forall2 (sample_terms c n) xs ts.
  Proof.
    revert ts. induction xs as [|x xs IH]; cbn; intros ts.
    - split; [intros E; injection E as <-; constructor|]. intros F. now inversion F.
    - split.
      + destruct (row_terms x) as [t|] eqn:E; [|discriminate]. destruct (all_rows xs) as [ts'|]; [|discriminate].
        intros Q. injection Q as <-. constructor; [now apply row_terms_spec|now apply IH].
      + intros F. inversion F as [|? t ? ts' A B]; subst. apply row_terms_spec in A. rewrite A. apply IH in B. now rewrite B.
  Qed.

  (** ** evaluation in batches *)
  Lemma lsumR_mean l : l <> [] -> mean l * INR (length l) = lsumR l.
  Proof. intros H. unfold mean. field. apply not_0_INR. destruct l; [congruence|discriminate]. Qed.

  Definition tot_of (ts : list terms) : tot :=
    let r := lsumR (map t_rec ts) in let k := lsumR (map t_kld ts) in let l := lsumR (map t_nll ts) in
    (mkMetrics r k l (w_rec c * r + w_kld c * k + w_nll c * l), length ts).

  Lemma tot_of_app a b : b <> [] -> tot_add (tot_of a) (metrics_of c b) (length b) = tot_of (a ++ b).
  Proof.
    intros H. unfold tot_add, tot_of, metrics_of. cbn [fst snd m_rec m_kld m_nll m_total]. rewrite !map_app, !lsumR_app, app_length.
    assert (forall f, mean (map f b) * INR (length b) = lsumR (map f b)) as M.
    { intros f. rewrite <- (map_length f b). apply lsumR_mean. destruct b; [congruence|discriminate]. }
    f_equal. f_equal; rewrite <- ?M; ring.
  Qed.
  Lemma tot_mean_of ts : ts <> [] -> tot_mean (tot_of ts) = Ok (metrics_of c ts).
  Proof.
    intros H. unfold tot_mean, tot_of, metrics_of, mean. cbn [fst snd m_rec m_kld m_nll m_total]. rewrite !map_length.
    destruct (Nat.eqb_spec (length ts) 0) as [E|N]; [destruct ts; [congruence|discriminate]|].
    f_equal. f_equal. field. now apply not_0_INR.
  Qed.

  Lemma eval_loop_rows p : forall bs, (forall b, In b bs -> b <> []) -> forall ts0,
    eval_loop unit (list X) (fun _ _ b => loss_components X Z c n b) (@length X) p bs (tot_of ts0) =
    match all_rows (concat bs) with Ok ts => Ok (tot_of (ts0 ++ ts)) | Err => Err end.
  Proof.
    induction bs as [|b bs IH]; intros H ts0; cbn; [now rewrite app_nil_r|].
    rewrite all_rows_app, loss_rows by (apply H; now left). destruct (all_rows b) as [tb|] eqn:E; [|reflexivity].
    assert (length b = length tb) as L by (symmetry; now apply all_rows_length). rewrite L.
    assert (b <> []) as Nb by (apply H; now left).
    rewrite tot_of_app by (destruct tb; [destruct b; [congruence|discriminate]|discriminate]).
    rewrite IH by (intros; apply H; now right). destruct (all_rows (concat bs)); [|reflexivity]. now rewrite app_assoc.
  Qed.

  Lemma evaluate_whole m bs : bs <> [] -> (forall b, In b bs -> b <> []) ->
    snd (evaluate unit (list X) (fun _ _ b => loss_components X Z c n b) (@length X) m bs) = loss_components X Z c n (concat bs).
  Proof.
    intros H0 H. unfold evaluate.
    assert (tot0 = tot_of []) as T. { unfold tot0, tot_of. cbn. f_equal. f_equal. ring. }
    rewrite T, eval_loop_rows by assumption. cbn [app].
    assert (concat bs <> []) as N. { destruct bs as [|b bs]; [congruence|]. cbn. specialize (H b (or_introl eq_refl)). destruct b; [congruence|discriminate]. }
    rewrite loss_rows by assumption. destruct (all_rows (concat bs)) as [ts|] eqn:E; [|reflexivity]. cbn [snd].
    apply tot_mean_of. apply all_rows_length in E. destruct ts; [destruct (concat bs); [congruence|discriminate]|discriminate].
  Qed.
End Obj.

Lemma batches_fuel_concat {X} b : (0 < b)%nat -> forall fuel (l : list X), (length l <= fuel)%nat ->
  concat (batches_fuel fuel b l) = l /\ (forall q, In q (batches_fuel fuel b l) -> q <> [] /\ (length q <= b)%nat).
Proof.
  intros Hb. induction fuel as [|f IH]; intros [|x l] H; cbn in *; try (split; [reflexivity|contradiction]); [lia|].
  destruct (IH (skipn b (x :: l))) as [A B]. { rewrite skipn_length. cbn [length]. lia. }
  split.
  - rewrite A. apply (firstn_skipn b (x :: l)).
  - intros q [<-|Hq]; [|now apply B]. split; [destruct b; [lia|discriminate]|]. rewrite firstn_length. lia.
Qed.
Lemma batches_concat {X} b (l : list X) : (0 < b)%nat ->
  concat (batches b l) = l /\ (forall q, In q (batches b l) -> q <> [] /\ (length q <= b)%nat).
Proof. intros H. now apply batches_fuel_concat. Qed.
