(** C95: size( dim ) and stride( dim ). *)
From Coq Require Import List Arith ZArith Lia Bool.
From Verif Require Import Base BaseProofs Debug Indexing IndexingSpec DimQuery.
From Verif Require IndexingProofs.
Import ListNotations.
Set Implicit Arguments.

Lemma chain_skip chk idx : forall s s', slice_chain chk s idx = Ok s' ->
  s_dims s' = skipn (length idx) (s_dims s) /\ s_strides s' = skipn (length idx) (s_strides s) /\ length idx <= length (s_dims s).
Proof.
  induction idx as [|i idx IH]; intros s s' E; cbn [slice_chain length] in *.
  - injection E as <-. repeat split; auto. lia.
  - unfold slice_index in E. destruct (s_dims s) as [|d ds]; [ discriminate | ]. destruct (s_strides s) as [|t ts]; [ discriminate | ].
    destruct (if chk then _ else _) as [[]| |]; try discriminate. cbn [bind] in E. apply IH in E. cbn [s_dims s_strides skipn length] in *.
    destruct E as (A & B & C). repeat split; auto. lia.
Qed.
Lemma entry_in block off d : (0 <= Z.of_nat off + d < Z.of_nat (length block))%Z ->
  entry block off d = Ok (nth (Z.to_nat (Z.of_nat off + d)) block 0).
Proof.
  intros R. unfold entry, to_ix. rewrite (proj2 (Z.ltb_ge _ 0)) by lia. cbn [bind]. apply aget_nth. lia.
Qed.
Lemma entry_out block off d : (Z.of_nat off + d < 0 \/ Z.of_nat (length block) <= Z.of_nat off + d)%Z -> entry block off d = Fault FOob.
Proof.
  intros R. unfold entry, to_ix. destruct (Z.ltb_spec (Z.of_nat off + d) 0); [ reflexivity | ]. cbn [bind]. unfold aget.
  rewrite (proj2 (nth_error_None block _)) by lia. reflexivity.
Qed.

(** Every array (extents, permutation), every slice of it, every dimension the slice has, every build: the extent and the
    stride of that dimension, which are those of the array further on. *)
Theorem C95_in_range : forall dbg chk perm dims idx s d,
  is_permutation perm (length dims) ->
  slice_chain chk (whole perm dims) idx = Ok s -> d < length (s_dims s) ->
  slice_entry chk dims (length idx) (Z.of_nat d) = Ok (nth d (s_dims s) 0) /\
  slice_entry chk (calculateStrides perm dims) (length idx) (Z.of_nat d) = Ok (nth d (s_strides s) 0) /\
  view_size dbg chk dims (Z.of_nat (length idx + d)) = Ok (nth d (s_dims s) 0).
Proof.
  intros dbg chk perm dims idx s d P E D. pose proof (IndexingProofs.strides_length P) as L. destruct (chain_skip _ _ _ E) as (A & B & C). unfold whole in *. cbn [s_dims s_strides] in *.
  rewrite A in D. rewrite skipn_length in D.
  assert (N : forall (l : list nat) k, nth d (skipn k l) 0 = nth (k + d) l 0).
  { intros l k. revert l. induction k as [|k IH]; intros l; [ reflexivity | ]. destruct l as [|x l]; [ destruct d; reflexivity | apply (IH l) ]. }
  rewrite A, B, !N. unfold slice_entry, view_size. rewrite L.
  rewrite !check_if_ok by (apply Z.leb_gt; lia). cbn [bind].
  rewrite !entry_in by lia. split; [ do 2 f_equal; lia | ]. split; [ do 2 f_equal; lia | ].
  unfold assert_. rewrite (proj2 (Z.leb_le 0 _)) by lia. rewrite (proj2 (Z.ltb_lt (Z.of_nat (length idx + d)) _)) by lia.
  cbn [negb]. rewrite !check_if_ok by reflexivity. cbn [bind]. replace (if chk then Ok tt else Ok tt) with (Ok tt) by (destruct chk; reflexivity). cbn [bind].
  do 2 f_equal. lia.
Qed.
Print Assumptions C95_in_range.

(** size( dim ) of an array or view with a dimension it does not have: an abort when both the bounds checks and the
    assertions are compiled in, and a read outside m_dims in every other build. *)
Theorem C95_view : forall dbg chk dims d, (d < 0 \/ Z.of_nat (length dims) <= d)%Z ->
  view_size dbg chk dims d = if dbg && chk then Abort else Fault FOob.
Proof.
  intros dbg chk dims d R. unfold view_size, assert_. rewrite entry_out by (simpl; lia).
  destruct chk, dbg; try reflexivity. cbn [andb check_if].
  destruct (Z.leb_spec 0 d); [ | reflexivity ]. rewrite (proj2 (Z.ltb_ge d _)) by lia. reflexivity.
Qed.
Print Assumptions C95_view.

(** The same for the entries of a slice reached by [depth] times operator[]: dimensions too large abort with bounds checks, the
    -depth .. -1 name the dimensions that have been sliced away without any report, and the others are outside. *)
Theorem C95_slice : forall chk block depth d, depth <= length block ->
  (d < 0 \/ Z.of_nat (length block - depth) <= d)%Z ->
  slice_entry chk block depth d =
    if (d <? - Z.of_nat depth)%Z then Fault FOob
    else if (d <? 0)%Z then Ok (nth (Z.to_nat (Z.of_nat depth + d)) block 0)
    else if chk then Abort else Fault FOob.
Proof.
  intros chk block depth d L R. unfold slice_entry.
  destruct (Z.ltb_spec d (- Z.of_nat depth)).
  - rewrite check_if_ok by (apply Z.leb_gt; lia). cbn [bind]. apply entry_out. lia.
  - destruct (Z.ltb_spec d 0).
    + rewrite check_if_ok by (apply Z.leb_gt; lia). cbn [bind]. apply entry_in. lia.
    + rewrite (proj2 (Z.leb_le _ d)) by lia. destruct chk; [ reflexivity | ]. cbn [check_if bind]. apply entry_out. lia.
Qed.
Print Assumptions C95_slice.

(** With bounds checks, "a dimension which does not exist is reported" is false for both classes. *)
Theorem C95_checked_refuted :
  view_size false true [2; 3] 2 = Fault FOob /\
  (exists s, slice_chain true (whole [0; 1] [2; 3]) [1%Z] = Ok s /\ s_dims s = [3] /\ slice_entry true [2; 3] 1 (-1) = Ok 2).
Proof. split; [ reflexivity | ]. eexists. split; [ vm_compute; reflexivity | ]. split; reflexivity. Qed.
Print Assumptions C95_checked_refuted.

Example C95_case :
  is_permutation [2; 0; 1] 3 /\
  (exists s, slice_chain true (whole [2; 0; 1] [4; 5; 6]) [3%Z] = Ok s /\ s_dims s = [5; 6] /\ s_strides s = [1; 20]) /\
  slice_entry true [4; 5; 6] 1 1 = Ok 6 /\ slice_entry true (calculateStrides [2; 0; 1] [4; 5; 6]) 1 1 = Ok 20 /\
  view_size true true [4; 5; 6] 2 = Ok 6 /\ view_size true true [4; 5; 6] 3 = Abort /\ slice_entry true [4; 5; 6] 1 2 = Abort.
Proof.
  split; [ unfold is_permutation; cbn [seq]; apply (Permutation.Permutation_cons_app [0; 1] [] 2), Permutation.Permutation_refl | ].
  split; [ eexists; split; [ vm_compute; reflexivity | split; vm_compute; reflexivity ] | ]. repeat split; vm_compute; reflexivity.
Qed.
