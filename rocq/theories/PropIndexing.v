(** Properties C06 - C11: index arithmetic, slices and traversals. Statements use IndexingSpec only
    besides the modelled functions. *)
From Coq Require Import List Arith ZArith Lia Bool Permutation Sorted.
From Verif Require Import Base Indexing IndexingSpec IndexingProofs IndexingProofs2 IndexingProofs3.
Import ListNotations.

(** C06: operator() maps the valid index tuples one-to-one onto the slots 0 .. size()-1. *)
Theorem C06_index_bijection : forall chk perm dims,
  is_permutation perm (length dims) -> 0 < length dims ->
  let a := whole perm dims in
  (forall idx, valid_index dims idx ->
     exists k, slice_call chk a idx = Ok k /\ (0 <= k < Z.of_nat (extent_product dims))%Z) /\
  (forall i j, valid_index dims i -> valid_index dims j -> slice_call chk a i = slice_call chk a j -> i = j) /\
  (forall k, (0 <= k < Z.of_nat (extent_product dims))%Z ->
     exists idx, valid_index dims idx /\ slice_call chk a idx = Ok k) /\
  slice_size a = extent_product dims.
Proof.
  intros chk perm dims P H a. repeat split.
  - intros idx V. unfold a. rewrite slice_call_valid by exact V. eexists. split; [reflexivity|].
    simpl. apply linear_index_in_range; assumption.
  - intros i j Vi Vj. unfold a. rewrite !slice_call_valid by assumption. simpl. intros E.
    injection E as E. eapply linear_index_injective; eassumption.
  - intros k Hk. destruct (linear_index_surjective P H Hk) as (idx & V & E). exists idx. split; [exact V|].
    unfold a. rewrite slice_call_valid by exact V. simpl. rewrite E. reflexivity.
  - apply multiplyAll_prod.
Qed.
Print Assumptions C06_index_bijection.
Example C06_case : is_permutation [2;0;1] (length [3;4;5]) /\ valid_index [3;4;5] [2;1;4]%Z /\
  slice_call true (whole [2;0;1] [3;4;5]) [2;1;4]%Z = Ok 57%Z.
Proof.
  split; [|split].
  - unfold is_permutation; simpl. apply (Permutation_trans (perm_swap 0 2 [1])). apply perm_skip, perm_swap.
  - repeat constructor; lia.
  - reflexivity.
Qed.

(** C07: the stride of a dimension is the product of the extents of the dimensions listed after it in
    the permutation; the last one has stride 1; skipping the multiplication by it changes nothing. *)
Theorem C07_strides : forall perm dims,
  is_permutation perm (length dims) -> 0 < length dims ->
  (forall k, k < length dims ->
     nth (nth k perm 0) (calculateStrides perm dims) 0 = faster_product perm dims k) /\
  nth (last perm 0) (calculateStrides perm dims) 0 = 1 /\
  length (calculateStrides perm dims) = length dims /\
  (forall idx, length idx = length dims ->
     getLinearIndex (Z.of_nat (last perm 0)) (calculateStrides perm dims) idx =
     getLinearIndex (-1) (calculateStrides perm dims) idx) /\
  (forall idx, length idx = length dims ->
     getLinearIndex (-1) (calculateStrides perm dims) idx =
     fold_right Z.add 0%Z (map (fun p => fst p * Z.of_nat (snd p))%Z (combine idx (calculateStrides perm dims)))).
Proof.
  intros perm dims P H. repeat split.
  - intros; apply strides_spec; assumption.
  - apply stride_one; assumption.
  - apply strides_length; assumption.
  - intros idx L. rewrite !getLinearIndex_zdot; auto.
    + rewrite strides_length; auto.
    + intros; lia.
    + rewrite strides_length; auto.
    + intros u E _. apply Nat2Z.inj in E. subst u. apply stride_one; auto.
  - intros idx L. rewrite getLinearIndex_zdot.
    + clear H. pose proof (strides_length P) as E. rewrite <- L in E.
      generalize dependent (calculateStrides perm dims). clear. induction idx as [|i idx IH]; intros [|s ss] E; try discriminate; auto.
      simpl. rewrite IH; auto.
    + rewrite strides_length; auto.
    + intros; lia.
Qed.
Print Assumptions C07_strides.
Example C07_case : calculateStrides [2;0;1] [3;4;5] = [4;1;12] /\ faster_product [2;0;1] [3;4;5] 0 = 12.
Proof. split; reflexivity. Qed.

(** C08: a[ i0 ]...[ ij ]( rest... ) is a( i0, ..., ij, rest... ), and the slice has the extents and
    strides of the remaining dimensions. [rest = []] is the fully chained case. *)
Theorem C08_chain : forall chk perm dims pre rest,
  is_permutation perm (length dims) -> 0 < length dims -> valid_index dims (pre ++ rest) ->
  exists s, slice_chain chk (whole perm dims) pre = Ok s /\
    s_dims s = skipn (length pre) dims /\
    s_strides s = skipn (length pre) (calculateStrides perm dims) /\
    slice_call chk s rest = slice_call chk (whole perm dims) (pre ++ rest) /\
    (rest = [] -> slice_call chk (whole perm dims) (pre ++ rest) = Ok (s_off s)).
Proof.
  intros chk perm dims pre rest P H V.
  destruct (@slice_chain_call chk (whole perm dims) pre rest) as (s & A & B & C & D & E);
    [apply unit_ok_whole; assumption | exact V |].
  exists s. repeat split; try assumption.
  intros ->. rewrite app_nil_r in *.
  destruct (@slice_chain_full chk (whole perm dims) pre) as (s' & A' & B' & E');
    [apply unit_ok_whole; assumption | exact V |].
  rewrite A in A'. injection A' as <-. exact E'.
Qed.
Print Assumptions C08_chain.
Example C08_case : valid_index [3;4;5] ([2;1] ++ [4])%Z /\
  slice_chain true (whole [2;0;1] [3;4;5]) [2;1]%Z = Ok (mkSlice 9 [5] [12] (-1)).
Proof. split; [repeat constructor; lia | reflexivity]. Qed.

(** C09: when isContiguous() holds, the slice's elements are exactly the size() consecutive slots from
    dataIfContiguous() on, each once. *)
Theorem C09_contiguous : forall chk perm dims pre s,
  is_permutation perm (length dims) -> length pre < length dims ->
  valid_index (firstn (length pre) dims) pre ->
  slice_chain chk (whole perm dims) pre = Ok s -> isContiguous s = true ->
  exists base, dataIfContiguous s = Ok base /\
  (forall idx, valid_index (s_dims s) idx ->
     exists c, slice_call chk s idx = Ok (base + c)%Z /\ (0 <= c < Z.of_nat (slice_size s))%Z) /\
  (forall i j, valid_index (s_dims s) i -> valid_index (s_dims s) j ->
     slice_call chk s i = slice_call chk s j -> i = j) /\
  (forall c, (0 <= c < Z.of_nat (slice_size s))%Z ->
     exists idx, valid_index (s_dims s) idx /\ slice_call chk s idx = Ok (base + c)%Z).
Proof.
  intros chk perm dims pre s P L V C Hc. exists (s_off s).
  unfold dataIfContiguous, slice_size. rewrite Hc, multiplyAll_prod. split; [reflexivity|].
  exact (contiguous_sound P L V C Hc).
Qed.
Print Assumptions C09_contiguous.
Example C09_case : exists s, slice_chain true (whole [0;1;2] [3;4;5]) [2]%Z = Ok s /\ isContiguous s = true /\
  exists s', slice_chain true (whole [1;0;2] [3;4;5]) [2]%Z = Ok s' /\ isContiguous s' = false.
Proof. eexists. split; [reflexivity|]. split; [reflexivity|]. eexists. split; reflexivity. Qed.

(** C10: with bounds checks, indexing aborts exactly on invalid tuples, and otherwise addresses a slot
    of the allocation. *)
Theorem C10_bounds_checked : forall perm dims idx,
  is_permutation perm (length dims) -> 0 < length dims -> length idx = length dims ->
  (valid_index dims idx ->
     exists k s, slice_call true (whole perm dims) idx = Ok k /\
       slice_chain true (whole perm dims) idx = Ok s /\ s_off s = k /\
       (0 <= k < Z.of_nat (extent_product dims))%Z) /\
  (~ valid_index dims idx ->
     slice_call true (whole perm dims) idx = Abort /\ slice_chain true (whole perm dims) idx = Abort).
Proof.
  intros perm dims idx P H L. split.
  - intros V. destruct (@slice_chain_full true (whole perm dims) idx) as (s & A & B & E);
      [apply unit_ok_whole; assumption | exact V |].
    exists (s_off s), s. repeat split; auto; rewrite slice_call_valid in E by exact V;
      injection E as E; rewrite <- E; simpl; apply linear_index_in_range; assumption.
  - intros V. split; [apply slice_call_checked; assumption|].
    assert (G : forall idx s, length idx = length (s_dims s) -> length (s_dims s) = length (s_strides s) ->
                ~ valid_index (s_dims s) idx -> slice_chain true s idx = Abort).
    { clear. induction idx as [|i idx IH]; intros s L U NV.
      - destruct (s_dims s); [|discriminate]. exfalso. apply NV. constructor.
      - simpl. unfold slice_index. destruct (s_dims s) as [|d ds] eqn:E1; [discriminate|].
        destruct (s_strides s) as [|t ts] eqn:E2; [discriminate|].
        destruct ((i <? 0) || (Z.of_nat d <=? i))%Z eqn:B; [reflexivity|]. simpl. apply IH; simpl in *; auto.
        intros V. apply NV. constructor; auto. lia. }
    apply G; simpl; auto. rewrite strides_length; auto.
Qed.
Print Assumptions C10_bounds_checked.
Example C10_case : ~ valid_index [3;4] [1;-1]%Z /\ slice_call true (whole [1;0] [3;4]) [1;-1]%Z = Abort.
Proof.
  split; [|reflexivity]. intros H. inversion H as [|? ? ? ? _ H1]; subst. inversion H1; subst. lia.
Qed.

(** C11: forValuesInSlice(WithIndices) runs the function on every element once, in lexicographic
    order of the indices; [s] is any slice reached from an array by operator[]. *)
Theorem C11_traversal : forall chk perm dims pre s,
  is_permutation perm (length dims) -> 0 < length dims -> length pre <= length dims ->
  valid_index (firstn (length pre) dims) pre ->
  slice_chain chk (whole perm dims) pre = Ok s ->
  exists L : list (list Z),
    (forall idx, In idx L <-> valid_index (s_dims s) idx) /\ NoDup L /\ StronglySorted lex_lt L /\
    forall St (f : Z -> list Z -> St -> outcome St) st,
      forValuesInSlice (length (s_dims s)) chk s [] f st =
      fold_out (fun idx st => k <- slice_call chk s idx ;; f k idx st) L st.
Proof.
  intros chk perm dims pre s P H L V C. apply forValues_visits.
  destruct (@slice_chain_ok chk pre (whole perm dims)) as [A B]; auto.
  - apply unit_ok_whole; assumption.
  - rewrite A in C. injection C as <-. exact B.
Qed.
Print Assumptions C11_traversal.
Example C11_case :
  forValuesInSlice 2 true (whole [1;0] [2;3]) [] (fun k idx acc => Ok (acc ++ [(k, idx)])) [] =
  Ok [(0,[0;0]);(2,[0;1]);(4,[0;2]);(1,[1;0]);(3,[1;1]);(5,[1;2])]%Z.
Proof. reflexivity. Qed.

(** C11, sumOverFirstDimension: each destination element gets, in order, the source elements with
    the same remaining indices added to it. *)
Theorem C11_sum : forall V (add : V -> V -> V) chk perm perm' d dims sdata ddata,
  is_permutation perm (S (length dims)) -> is_permutation perm' (length dims) -> 0 < length dims ->
  length sdata = extent_product (d :: dims) -> length ddata = extent_product dims ->
  let src := whole perm (d :: dims) in let dst := whole perm' dims in
  exists dd', sumOverFirstDimension add chk src sdata dst ddata = Ok dd' /\ length dd' = length ddata /\
    forall idx old, valid_index dims idx -> value_at chk dst ddata idx = Ok old ->
      exists vals, length vals = d /\
        (forall i, i < d -> exists v, nth_error vals i = Some v /\
                     value_at chk src sdata (Z.of_nat i :: idx) = Ok v) /\
        value_at chk dst dd' idx = Ok (fold_left add vals old).
Proof.
  intros V add chk perm perm' d dims sdata ddata P P' H Ls Ld src dst.
  apply sum_first_ok.
  - apply unit_ok_whole; simpl; auto; lia.
  - rewrite Ls. apply whole_in_range; simpl; auto; lia.
  - rewrite Ld. apply whole_in_range; auto.
  - apply whole_distinct; auto.
  - reflexivity.
Qed.
Print Assumptions C11_sum.
Theorem C11_sum_1d : forall V (add : V -> V -> V) chk d sdata dst,
  length sdata = d ->
  sumOverFirstDimension1 add chk (whole [0] [d]) sdata dst = Ok (fold_left add sdata dst).
Proof.
  intros V add chk d sdata dst L.
  destruct (@sum_first_1_ok V add chk (whole [0] [d]) sdata dst d) as (vals & Lv & Hv & E).
  - replace (length sdata) with (extent_product [d]) by (unfold extent_product; simpl; lia).
    apply whole_in_range; simpl; auto. apply Permutation_refl.
  - reflexivity.
  - rewrite E. f_equal. f_equal. apply nth_ext_err. intros i.
    destruct (Nat.lt_ge_cases i d) as [Hi|Hi].
    + destruct (Hv i Hi) as (v & A & B). rewrite A. unfold value_at in B.
      rewrite slice_call_valid in B by (constructor; [lia|constructor]).
      simpl in B. unfold slot_get in B. rewrite to_ix_of_nat in B. simpl in B.
      unfold aget in B. destruct (nth_error sdata i); congruence.
    + rewrite (proj2 (nth_error_None vals i)), (proj2 (nth_error_None sdata i)); auto; lia.
Qed.
Print Assumptions C11_sum_1d.
(** Extents that do not fit end the process before anything is added, with and without bounds checks. *)
Theorem C11_sum_mismatch : forall V (add : V -> V -> V) chk src sdata dst ddata, tl (s_dims src) <> s_dims dst ->
  sumOverFirstDimension add chk src sdata dst ddata = Abort.
Proof. intros V add chk src sdata dst ddata N. unfold sumOverFirstDimension. destruct (list_eq_dec Nat.eq_dec _ _); [contradiction|reflexivity]. Qed.
Print Assumptions C11_sum_mismatch.
Example C11_sum_case :
  sumOverFirstDimension Nat.add true (whole [1;0] [2;3]) [1;2;3;4;5;6] (whole [0] [3]) [100;200;300]
  = Ok [103;207;311].
Proof. reflexivity. Qed.
