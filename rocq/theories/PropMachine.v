(** Property C62: index arithmetic in a machine integer type. Specification vocabulary: IndexingSpec. *)
From Coq Require Import List Arith ZArith Lia Bool Permutation.
From Verif Require Import Base Indexing IndexingSpec IndexingProofs IndexingProofs2 MachineIndex MachineIndexProofs.
Import ListNotations.
Open Scope Z_scope.

(** C62: if the product of the extents fits, counting empty extents as one, then no operation of
    calculateStrides, size() and operator() overflows, and the results are the mathematical ones. *)
Theorem C62_no_overflow : forall hi perm dims,
  is_permutation perm (length dims) -> (0 < length dims)%nat ->
  Z.of_nat (extent_product (map (Nat.max 1) dims)) <= hi ->
  let ds := map Z.of_nat dims in
  m_multiplyAll hi ds = Ok (Z.of_nat (extent_product dims)) /\
  exists st, m_calculateStrides hi perm ds = Ok st /\ st = map Z.of_nat (calculateStrides perm dims) /\
    (forall k, (k < length dims)%nat -> nth (nth k perm 0%nat) st 0 = Z.of_nat (faster_product perm dims k)) /\
    forall idx, valid_index dims idx ->
      exists k, m_getLinearIndex hi (Z.of_nat (last perm 0%nat)) st idx = Ok k /\
        slice_call true (whole perm dims) idx = Ok k /\ 0 <= k < Z.of_nat (extent_product dims).
Proof.
  intros hi perm dims P L B ds.
  pose proof (max_prod_sub dims) as H1.
  assert (PF : forall ds', (extent_product (map (Nat.max 1) ds') <= extent_product (map (Nat.max 1) dims))%nat -> zprod ds' <= hi).
  { intros ds' Q. pose proof (prod_le_max ds'). unfold zprod. lia. }
  split; [|exists (map Z.of_nat (calculateStrides perm dims)); split; [|split; [reflexivity|split]]].
  - apply size_ok; [lia|destruct dims; [cbn in L; lia|discriminate]| |].
    + apply Forall_forall. intros d D. apply In_nth with (d := 0%nat) in D as (k & K & <-).
      assert (E : zprod (firstn 1 (skipn k dims)) <= hi).
      { apply PF. etransitivity; [apply firstn_max|]. apply skipn_max. }
      rewrite <- (firstn_skipn k dims), app_nth2 by (rewrite firstn_length; lia).
      rewrite firstn_length, Nat.min_l by lia. rewrite Nat.sub_diag.
      destruct (skipn k dims) as [|x r]; [cbn; lia|]. cbn [firstn] in E. rewrite zprod_cons in E. unfold zprod in E. cbn in E. cbn [nth]. lia.
    + intros k. apply PF. apply skipn_max.
  - apply strides_ok; [lia|exact P|]. intros i k. apply PF. rewrite <- (@gather_max perm dims P).
    etransitivity; [apply firstn_max|]. apply skipn_max.
  - intros k K. change 0 with (Z.of_nat 0). rewrite map_nth. f_equal. apply strides_spec; assumption.
  - intros idx V. pose proof (linear_index_in_range P L V) as R.
    exists (getLinearIndex (Z.of_nat (strideOneDim perm)) (calculateStrides perm dims) idx). split; [|split; [|exact R]].
    + apply getLinear_ok; [lia| |].
      * clear - V. induction V; constructor; auto. lia.
      * pose proof (prod_le_max dims). lia.
    + rewrite slice_call_valid by exact V. reflexivity.
Qed.
Print Assumptions C62_no_overflow.
Example C62_case : m_calculateStrides 127 [1;0;2]%nat [4;6;5] = Ok [5;20;1] /\ m_multiplyAll 127 [4;6;5] = Ok 120 /\
  m_getLinearIndex 127 2 [5;20;1] [3;5;4] = Ok 119 /\ m_multiplyAll 127 [4;6;6] = Fault FOverflow.
Proof. vm_compute. repeat split. Qed.

(** C62: exactly when they overflow. size() multiplies from the back: it fails exactly if the product of
    the extents from some dimension on does not fit. The strides fail exactly if the product of a run of
    extents that begins after the first position of the permutation does not fit. *)
Theorem C62_exact : forall hi perm dims,
  is_permutation perm (length dims) -> (0 < length dims)%nat -> Forall (fun d => Z.of_nat d <= hi) dims -> 1 <= hi ->
  let mem := map (fun p => nth p dims 0%nat) perm in
  (((forall k, Z.of_nat (extent_product (skipn k dims)) <= hi) /\
    m_multiplyAll hi (map Z.of_nat dims) = Ok (Z.of_nat (extent_product dims))) \/
   ((exists k, hi < Z.of_nat (extent_product (skipn k dims))) /\
    m_multiplyAll hi (map Z.of_nat dims) = Fault FOverflow)) /\
  (((forall i k, Z.of_nat (extent_product (firstn k (skipn (S i) mem))) <= hi) /\
    m_calculateStrides hi perm (map Z.of_nat dims) = Ok (map Z.of_nat (calculateStrides perm dims))) \/
   ((exists i k, hi < Z.of_nat (extent_product (firstn k (skipn (S i) mem)))) /\
    m_calculateStrides hi perm (map Z.of_nat dims) = Fault FOverflow)).
Proof.
  intros hi perm dims P L F H1 mem. split.
  - assert (D : (exists k, hi < zprod (skipn k dims)) \/ (forall k, zprod (skipn k dims) <= hi)).
    { clear - H1. induction dims as [|x l IH].
      - right. intros j. rewrite skipn_nil. unfold zprod. cbn. lia.
      - destruct IH as [(j & J)|A]; [left; exists (S j); exact J|].
        destruct (Z.leb_spec (zprod (x :: l)) hi) as [Q|Q]; [|left; exists O; exact Q].
        right. intros [|j]; [exact Q|apply A]. }
    destruct D as [D|D]; [right|left]; (split; [exact D|]).
    + apply size_over; assumption.
    + apply size_ok; auto. destruct dims; [cbn in L; lia|discriminate].
  - assert (D : (exists i k, hi < zprod (firstn k (skipn (S i) mem))) \/ (forall i k, zprod (firstn k (skipn (S i) mem)) <= hi)).
    { generalize mem. clear - H1. induction mem as [|x l IH].
      - right. intros i k. rewrite skipn_nil, firstn_nil. unfold zprod. cbn. lia.
      - destruct IH as [(i & k & J)|A]; [left; exists (S i), k; exact J|].
        destruct (@prefixes_dec hi l 1 ltac:(lia)) as [(k & K)|Q].
        + left. exists O, k. cbn [skipn]. lia.
        + right. intros [|i] k; [specialize (Q k); cbn [skipn]; lia|apply A]. }
    destruct D as [D|D]; [right|left]; (split; [exact D|]).
    + apply strides_over; assumption.
    + apply strides_ok; auto.
Qed.
Print Assumptions C62_exact.

(** C62: it is not enough that the number of elements fits: an array without elements overflows. *)
Theorem C62_empty_array_refuted : forall hi, 2 <= hi ->
  exists dims, Forall (fun d => Z.of_nat d <= hi) dims /\ extent_product dims = 0%nat /\
    m_multiplyAll hi (map Z.of_nat dims) = Fault FOverflow /\
    m_calculateStrides hi (seq 0 3) (map Z.of_nat dims) = Fault FOverflow.
Proof.
  intros hi H. exists [0; Z.to_nat hi; 2]%nat. repeat split.
  - repeat constructor; lia.
  - apply size_over; [lia|repeat constructor; lia|]. exists 1%nat. cbn [skipn]. rewrite !zprod_cons. unfold zprod. cbn [extent_product fold_right]. lia.
  - apply (@strides_over hi ltac:(lia) (seq 0 3) [0; Z.to_nat hi; 2]%nat). exists O, 2%nat. cbn [gather map seq nth skipn firstn].
    unfold gather. cbn [map nth seq skipn firstn]. rewrite !zprod_cons. unfold zprod. cbn [extent_product fold_right]. lia.
Qed.
Print Assumptions C62_empty_array_refuted.

(** C62: resizing one extent: if the larger of the two sizes fits, none of the products overflows, every
    shifted or constructed range lies inside the larger array and all numbers are the mathematical ones. *)
Theorem C62_resize_dimension : forall hi len stride outer newLen,
  0 <= len -> 0 <= newLen -> 0 < stride -> 0 < outer -> stride * Z.max len newLen * outer <= hi ->
  let cur := stride * len * outer in let new := stride * newLen * outer in
  (len < newLen ->
     exists l, m_grow hi len stride cur newLen new = Ok (stride * (newLen - len), l) /\
       length l = Z.to_nat outer /\
       forall k, 0 <= k < outer ->
         nth (Z.to_nat (outer - 1 - k)) l (0, 0, 0) = (stride * len * k, stride * len, stride * (newLen - len) * k)) /\
  (newLen < len ->
     exists l, m_shrink hi len stride cur newLen new = Ok (cur - new, l) /\
       length l = Z.to_nat (outer - 1) /\
       forall k, 1 <= k < outer ->
         nth (Z.to_nat (k - 1)) l (0, 0, 0) =
         (stride * newLen * k, stride * newLen + stride * (len - newLen) * k, stride * (len - newLen) * k)).
Proof.
  intros hi len stride outer newLen HL HN HS HO B cur new. split; intros C.
  - rewrite Z.max_r in B by lia. assert (0 < stride * newLen) by nia. assert (1 <= hi) by nia.
    eexists. split; [apply grow_ok; auto; lia|]. split; [rewrite map_length, rev_length, seq_length; reflexivity|].
    intros k K. set (f := fun i : nat => _).
    rewrite (nth_indep _ (0, 0, 0) (f 0%nat)) by (rewrite map_length, rev_length, seq_length; lia).
    rewrite (map_nth f). rewrite rev_nth by (rewrite seq_length; lia). rewrite seq_length, seq_nth by lia.
    unfold f. replace (Z.of_nat (0 + (Z.to_nat outer - S (Z.to_nat (outer - 1 - k))))) with k by lia. reflexivity.
  - rewrite Z.max_l in B by lia. assert (0 < stride * len) by nia. assert (1 <= hi) by nia.
    eexists. split; [apply shrink_ok; auto; lia|]. split; [rewrite map_length, seq_length; reflexivity|].
    intros k K. set (f := fun i : nat => _).
    rewrite (nth_indep _ (0, 0, 0) (f 0%nat)) by (rewrite map_length, seq_length; lia).
    rewrite (map_nth f). rewrite seq_nth by lia.
    unfold f. cbv zeta. replace (Z.of_nat (1 + Z.to_nat (k - 1))) with k by lia. reflexivity.
Qed.
Print Assumptions C62_resize_dimension.
Example C62_case_resize : m_grow 127 2 3 24 5 60 = Ok (9, [(18, 6, 27); (12, 6, 18); (6, 6, 9); (0, 6, 0)]) /\
  m_shrink 127 5 3 60 2 24 = Ok (36, [(6, 15, 9); (12, 24, 18); (18, 33, 27)]).
Proof. vm_compute. split; reflexivity. Qed.

(** C62: the binary search, for every outcome of the comparisons: it does not overflow if the last
    position can be doubled, and terminates in as many steps as there are values; past that, searching
    for something larger than all values overflows. *)
Theorem C62_find : forall hi size less, 0 <= size <= hi ->
  (2 * size - 1 <= hi -> exists r, m_find hi (Z.to_nat size) less 0 size = Ok r /\ 0 <= r <= size) /\
  (hi < 2 * size - 2 -> m_find hi (Z.to_nat size) (fun _ => true) 0 size = Fault FOverflow).
Proof.
  intros hi size less B. destruct (Z.eq_dec size 0) as [->|N].
  - split; [|lia]. intros _. exists 0. split; [reflexivity|lia].
  - split; intros H.
    + apply find_no_overflow; lia.
    + apply find_overflow; lia.
Qed.
Print Assumptions C62_find.

(** C62: growing by doubling overflows exactly for more than half of the largest value; the block behind
    a reallocated buffer holds the capacity it reports exactly if the number of bytes does not wrap and
    malloc does not fail. *)
Theorem C62_capacity :
  (forall hi cap new, 1 <= hi -> 0 <= cap < new -> new <= hi ->
     (2 * new <= hi -> m_dynamicReserve hi cap new = Ok (2 * new)) /\
     (hi < 2 * new -> m_dynamicReserve hi cap new = Fault FOverflow)) /\
  (forall word sizeofT new malloc block cap, 0 < sizeofT -> 0 <= new < word -> 
     (forall n b, malloc n = Some b -> b = n) ->
     m_reallocate word sizeofT new malloc = (block, cap) ->
     cap = new /\
     forall b, block = Some b -> (cap * sizeofT <= b <-> new * sizeofT < word)).
Proof.
  split.
  - intros hi cap new H C N. unfold m_dynamicReserve, mmul. destruct (Z.ltb_spec cap new); [|lia]. split; intros K.
    + apply mret_ok; lia.
    + apply mret_over; lia.
  - intros word sz new malloc block cap S N A E. unfold m_reallocate in E. injection E as E <-. split; [reflexivity|].
    intros b ->. apply A in E. rewrite (Z.mod_small new) in E by lia.
    pose proof (Z.mod_pos_bound (new * sz) word ltac:(lia)). split; intros K; [lia|].
    rewrite Z.mod_small in E by nia. lia.
Qed.
Print Assumptions C62_capacity.
(** C62: so capacity() can promise memory that is not there: 2 ^ 61 doubles are "allocated" in no bytes. *)
Theorem C62_wrapped_block_refuted :
  m_reallocate (2 ^ 64) 8 (2 ^ 61) (fun n => Some n) = (Some 0, 2 ^ 61) /\ 2 ^ 61 <= 2 ^ 63 - 1.
Proof. split; [vm_compute; reflexivity|]. apply Z.leb_le. vm_compute. reflexivity. Qed.
Print Assumptions C62_wrapped_block_refuted.
