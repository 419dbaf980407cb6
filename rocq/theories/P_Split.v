(** Properties C18-C20, C66, C67: feature splits. *)
From Coq Require Import List Arith ZArith Bool Lia Permutation.
From Verif Require Import Base SplitModel SplitProofs.
Import ListNotations.

(** C18.  Lists are the feature slices of a tensor. *)
Theorem C18_consecutive : forall A n (l : list A) ls, split_consecutive n l = Ok ls -> merge_consecutive ls = l.
Proof. exact @c18_consecutive. Qed.
Print Assumptions C18_consecutive.

(** n splits of equal width when the number of features is a multiple of n;
    feature i*w + j is feature j of split i *)
Theorem C18_consecutive_layout : forall A n w (l : list A), (0 < n)%nat -> (0 < w)%nat -> length l = (n * w)%nat ->
  split_consecutive n l = Ok (map (fun i => firstn w (skipn (i * w) l)) (seq 0 n)).
Proof. exact @split_consecutive_div. Qed.
Print Assumptions C18_consecutive_layout.

Theorem C18_interleaved : forall A n w (l : list A), (0 < n)%nat -> length l = (w * n)%nat ->
  merge_interleaved (split_interleaved n l) = Ok l.
Proof. exact @c18_interleaved. Qed.
Print Assumptions C18_interleaved.

(** feature j*n + i is feature j of split i *)
Theorem C18_interleaved_layout : forall A n i d w (l : list A), (i < n)%nat -> length l = (w * n)%nat ->
  strided n i l = map (fun j => nth (j * n + i) l d) (seq 0 w).
Proof. exact @strided_spec. Qed.
Print Assumptions C18_interleaved_layout.

Theorem C18_by_index : forall A (d : A) groups l, validate_indices groups (length l) = true ->
  merge_by_index d groups (length l) (split_by_index d groups l) = l /\
  merge_tensors_by_index d groups (length l) (split_by_index d groups l) = l.
Proof. intros A d groups l V. split; [now apply c18_by_index|now apply c18_by_index_tensors]. Qed.
Print Assumptions C18_by_index.

(** every feature (position) lands in exactly one split *)
Theorem C18_partition : forall n w ls groups F,
  (split_consecutive n (seq 0 F) = Ok ls -> Permutation (concat ls) (seq 0 F)) /\
  ((0 < n)%nat -> Permutation (concat (split_interleaved n (seq 0 (w * n)))) (seq 0 (w * n))) /\
  (validate_indices groups F = true -> Permutation (concat (split_by_index F groups (seq 0 F))) (seq 0 F)).
Proof. exact c18_part. Qed.
Print Assumptions C18_partition.

Example C18_ex : split_consecutive 2 [10; 11; 12; 13]%nat = Ok [[10; 11]; [12; 13]]%nat /\
  split_interleaved 2 [10; 11; 12; 13]%nat = [[10; 12]; [11; 13]]%nat /\
  split_by_index 0%nat [[3; 0]; [1; 2]]%Z [10; 11; 12; 13]%nat = [[13; 10]; [11; 12]]%nat /\
  validate_indices [[3; 0]; [1; 2]]%Z 4 = true.
Proof. repeat split; reflexivity. Qed.

(** C19: by-index splits name the right scope, padding is marked *)
Theorem C19_by_index_scopes : forall A (d : A) groups scopes i j g, nth_error groups i = Some g ->
  fts_by_index d groups scopes j i = nth_error (nth i (split_by_index d groups scopes) []) j.
Proof. exact @c19. Qed.
Print Assumptions C19_by_index_scopes.
Example C19_ex : fts_by_index 0%nat [[3; 0]; [1]; [2]]%Z [10; 11; 12; 13]%nat 1 0 = Some 10%nat /\
  fts_by_index 0%nat [[3; 0]; [1]; [2]]%Z [10; 11; 12; 13]%nat 1 1 = None.
Proof. split; reflexivity. Qed.

(** C66: the other split modes report the scopes in the wrong layout: split 0 of
    4 features is {0,1} resp. {0,2}, but feature_to_scope reports something else *)
Theorem C66_consecutive_scopes_refuted : exists n (scopes : list nat) ls i j,
  split_consecutive n scopes = Ok ls /\ nth_error (nth i ls []) j <> None /\
  nth_error (nth i ls []) j <> Some (fts_consecutive 99%nat n scopes j i).
Proof. exists 2%nat, [0; 1; 2; 3]%nat. eexists. exists 0%nat, 1%nat. split; [reflexivity|]. split; discriminate. Qed.
Print Assumptions C66_consecutive_scopes_refuted.
Theorem C66_interleaved_scopes_refuted : exists n (scopes : list nat) i j,
  nth_error (nth i (split_interleaved n scopes) []) j <> None /\
  nth_error (nth i (split_interleaved n scopes) []) j <> Some (fts_interleaved 99%nat n scopes j i).
Proof. exists 2%nat, [0; 1; 2; 3]%nat, 0%nat, 1%nat. split; discriminate. Qed.
Print Assumptions C66_interleaved_scopes_refuted.

(** C67: sizes that are not divisible: three outputs for num_splits = 2 *)
Theorem C67_number_of_splits_refuted : exists n (l : list nat) ls, (2 <= n)%nat /\ (n <= length l)%nat /\
  split_consecutive n l = Ok ls /\ length ls <> n.
Proof. exists 2%nat, [0; 1; 2; 3; 4]%nat. eexists. split; [lia|]. split; [cbn; lia|]. split; [reflexivity|]. discriminate. Qed.
Print Assumptions C67_number_of_splits_refuted.
Theorem C67_interleaved_merge_refuted : exists n (l : list nat), (2 <= n)%nat /\ (n <= length l)%nat /\
  merge_interleaved (split_interleaved n l) = Err.
Proof. exists 2%nat, [0; 1; 2; 3; 4]%nat. split; [lia|]. split; [cbn; lia|]. reflexivity. Qed.
Print Assumptions C67_interleaved_merge_refuted.

(** C20 *)
Theorem C20_accepts_partitions : forall groups F,
  mk_split_by_index (Some groups) F = Ok groups <-> Permutation (concat groups) (map Z.of_nat (seq 0 F)).
Proof. exact c20. Qed.
Print Assumptions C20_accepts_partitions.
Theorem C20_rejects_others : forall groups F,
  mk_split_by_index (Some groups) F = Err <-> ~ Permutation (concat groups) (map Z.of_nat (seq 0 F)).
Proof. exact c20_err. Qed.
Print Assumptions C20_rejects_others.
Example C20_ex : mk_split_by_index (Some [[2; 0]; [1]]%Z) 3 = Ok [[2; 0]; [1]]%Z /\ mk_split_by_index (Some [[2; 0]; [-1]]%Z) 3 = Err.
Proof. split; reflexivity. Qed.
