(** Proofs about MachineIndex.v. *)
From Coq Require Import List Arith ZArith Lia Bool Permutation.
From Verif Require Import Base Indexing IndexingSpec IndexingProofs IndexingProofs2 MachineIndex.
Import ListNotations.
Set Implicit Arguments.
Open Scope Z_scope.

Notation ZN := (map Z.of_nat).
Definition zprod (ds : list nat) : Z := Z.of_nat (extent_product ds).

Lemma zprod_cons d ds : zprod (d :: ds) = Z.of_nat d * zprod ds.
Proof. unfold zprod. change (extent_product (d :: ds)) with (d * extent_product ds)%nat. apply Nat2Z.inj_mul. Qed.
Lemma zprod_nonneg ds : 0 <= zprod ds.
Proof. unfold zprod. lia. Qed.

Section M.
Variable hi : Z.
Hypothesis H1 : 1 <= hi.

Lemma mret_ok x : 0 <= x <= hi -> mret hi x = Ok x.
Proof. intros H. unfold mret, fits. destruct (Z.leb_spec (- hi - 1) x); [|lia]. destruct (Z.leb_spec x hi); [reflexivity|lia]. Qed.
Lemma mret_over x : hi < x -> mret hi x = Fault FOverflow.
Proof. intros H. unfold mret, fits. destruct (Z.leb_spec x hi); [lia|]. rewrite andb_false_r. reflexivity. Qed.

Lemma size_ok : forall dims, dims <> [] -> Forall (fun d => Z.of_nat d <= hi) dims ->
  (forall k, zprod (skipn k dims) <= hi) -> m_multiplyAll hi (ZN dims) = Ok (zprod dims).
Proof.
  induction dims as [|d ds IH]; [congruence|]. intros _ F S. inversion F; subst.
  destruct ds as [|e es]; [cbn; f_equal; unfold zprod; cbn; lia|].
  change (m_multiplyAll hi (ZN (d :: e :: es))) with (p <- m_multiplyAll hi (ZN (e :: es)) ;; mmul hi (Z.of_nat d) p).
  rewrite IH; auto; [|discriminate|intros k; apply (S (Datatypes.S k))].
  cbn [bind]. unfold mmul. rewrite (zprod_cons d). apply mret_ok.
  specialize (S O). cbn [skipn] in S. rewrite zprod_cons in S. pose proof (zprod_nonneg (e :: es)). nia.
Qed.
Lemma size_over : forall dims, Forall (fun d => Z.of_nat d <= hi) dims ->
  (exists k, hi < zprod (skipn k dims)) -> m_multiplyAll hi (ZN dims) = Fault FOverflow.
Proof.
  induction dims as [|d ds IH]; intros F (k & K).
  - rewrite skipn_nil in K. unfold zprod in K. cbn in K. lia.
  - inversion F; subst. destruct ds as [|e es].
    + exfalso. destruct k as [|k]; cbn [skipn] in K; [|rewrite skipn_nil in K]; unfold zprod in K; cbn in K; lia.
    + change (m_multiplyAll hi (ZN (d :: e :: es))) with (p <- m_multiplyAll hi (ZN (e :: es)) ;; mmul hi (Z.of_nat d) p).
      assert (D : (exists j, hi < zprod (skipn j (e :: es))) \/ (forall j, zprod (skipn j (e :: es)) <= hi)).
      { clear - H1. generalize (e :: es). clear e es. induction l as [|x l IH].
        - right. intros j. rewrite skipn_nil. unfold zprod. cbn. lia.
        - destruct IH as [(j & J)|A]; [left; exists (S j); exact J|].
          destruct (Z.leb_spec (zprod (x :: l)) hi) as [L|L]; [|left; exists O; exact L].
          right. intros [|j]; [exact L|apply A]. }
      destruct D as [D|D]; [rewrite IH; auto|].
      rewrite size_ok; auto; [|discriminate].
      cbn [bind]. unfold mmul. apply mret_over. destruct k as [|k]; cbn [skipn] in K.
      * rewrite zprod_cons in K. exact K.
      * specialize (D k). lia.
Qed.

Lemma product_from_ok : forall ds acc, 0 <= acc -> (forall k, acc * zprod (firstn k ds) <= hi) ->
  m_product_from hi acc (ZN ds) = Ok (acc * zprod ds).
Proof.
  induction ds as [|d ds IH]; intros acc A B; cbn [map m_product_from].
  - f_equal. unfold zprod. cbn. lia.
  - unfold mmul. pose proof (B 1%nat) as B1. cbn [firstn] in B1. rewrite zprod_cons in B1. unfold zprod in B1; cbn in B1.
    rewrite mret_ok by nia. cbn [bind]. rewrite IH; [f_equal; rewrite zprod_cons; lia|nia|].
    intros k. specialize (B (S k)). cbn [firstn] in B. rewrite zprod_cons in B. nia.
Qed.
Lemma product_from_over : forall ds acc, 0 <= acc <= hi -> (exists k, hi < acc * zprod (firstn k ds)) ->
  m_product_from hi acc (ZN ds) = Fault FOverflow.
Proof.
  induction ds as [|d ds IH]; intros acc A (k & K); cbn [map m_product_from].
  - rewrite firstn_nil in K. unfold zprod in K. cbn in K. lia.
  - unfold mmul. destruct (Z.leb_spec (acc * Z.of_nat d) hi) as [L|L].
    + rewrite mret_ok by nia. cbn [bind]. apply IH; [nia|]. destruct k as [|k].
      * unfold zprod in K; cbn in K. lia.
      * exists k. cbn [firstn] in K. rewrite zprod_cons in K. nia.
    + rewrite mret_over by lia. reflexivity.
Qed.

Fixpoint folded (ds : list nat) : list nat :=
  match ds with [] => [] | _ :: ds' => extent_product ds' :: folded ds' end.
Lemma folded_ok : forall ds, (forall i k, zprod (firstn k (skipn (S i) ds)) <= hi) ->
  m_foldedStrides hi (ZN ds) = Ok (ZN (folded ds)).
Proof.
  induction ds as [|d ds IH]; intros B; cbn [map m_foldedStrides folded]; [reflexivity|].
  rewrite product_from_ok; [|lia|intros k; rewrite Z.mul_1_l; apply (B O)].
  cbn [bind]. rewrite IH; [cbn [bind]; rewrite Z.mul_1_l; reflexivity|]. intros i k. apply (B (S i) k).
Qed.
Lemma prefixes_dec : forall ds acc, 0 <= acc ->
  (exists k, hi < acc * zprod (firstn k ds)) \/ (forall k, acc * zprod (firstn k ds) <= hi).
Proof.
  induction ds as [|d ds IH]; intros acc A.
  - destruct (Z.leb_spec (acc * 1) hi) as [L|L].
    + right. intros k. rewrite firstn_nil. unfold zprod. cbn. lia.
    + left. exists O. unfold zprod. cbn. lia.
  - destruct (Z.leb_spec (acc * 1) hi) as [L|L]; [|left; exists O; unfold zprod; cbn; lia].
    destruct (IH (acc * Z.of_nat d)) as [(k & K)|B]; [nia| |].
    + left. exists (S k). cbn [firstn]. rewrite zprod_cons. nia.
    + right. intros [|k]; [unfold zprod; cbn; lia|]. cbn [firstn]. rewrite zprod_cons. specialize (B k). nia.
Qed.
Lemma folded_over : forall ds, (exists i k, hi < zprod (firstn k (skipn (S i) ds))) ->
  m_foldedStrides hi (ZN ds) = Fault FOverflow.
Proof.
  induction ds as [|d ds IH]; intros (i & k & K).
  - rewrite skipn_nil, firstn_nil in K. unfold zprod in K. cbn in K. lia.
  - cbn [map m_foldedStrides]. destruct (@prefixes_dec ds 1 ltac:(lia)) as [D|D].
    + rewrite product_from_over; [reflexivity|lia|exact D].
    + rewrite product_from_ok; [|lia|exact D]. cbn [bind].
      rewrite IH; [reflexivity|]. destruct i as [|i].
      * cbn [skipn] in K. specialize (D k). lia.
      * exists i, k. exact K.
Qed.

Lemma upd_map {A B} (f : A -> B) : forall l i x, map f (upd l i x) = upd (map f l) i (f x).
Proof. induction l as [|y l IH]; intros [|i] x; cbn; try reflexivity. f_equal. apply IH. Qed.
Lemma scatter_map perm : forall f acc,
  map Z.of_nat (fold_left (fun a pv => upd a (fst pv) (snd pv)) (combine perm f) acc) =
  fold_left (fun a pv => upd a (fst pv) (snd pv)) (combine perm (ZN f)) (ZN acc).
Proof.
  induction perm as [|p ps IH]; intros [|x f] acc; cbn; try reflexivity.
  rewrite IH, upd_map. reflexivity.
Qed.

Lemma folded_nth : forall ds k, (k < length ds)%nat -> nth k (folded ds) 0%nat = extent_product (skipn (S k) ds).
Proof. induction ds as [|d ds IH]; intros [|k] K; cbn [length] in *; try lia; [reflexivity|]. cbn [folded nth]. rewrite IH by lia. reflexivity. Qed.
Lemma folded_len : forall ds, length (folded ds) = length ds.
Proof. induction ds; cbn; lia. Qed.

Lemma gather_len perm dims : length (map (fun p => nth p dims 0%nat) perm) = length perm.
Proof. apply map_length. Qed.
Lemma folded_eq perm dims : is_permutation perm (length dims) ->
  folded (gather perm dims) = map (foldedStride perm dims) (seq 0 (length dims)).
Proof.
  intros P. assert (L : length perm = length dims) by (apply Permutation_length in P; rewrite seq_length in P; exact P).
  apply (nth_ext _ _ 0%nat 0%nat).
  - rewrite folded_len, map_length, seq_length. unfold gather. rewrite map_length. exact L.
  - intros k K. rewrite folded_len in K. unfold gather in K. rewrite map_length in K.
    rewrite folded_nth by (unfold gather; rewrite map_length; lia).
    rewrite (nth_indep _ 0%nat (foldedStride perm dims 0%nat)) by (rewrite map_length, seq_length; lia).
    rewrite map_nth, seq_nth by lia. cbn [Nat.add].
    rewrite foldedStride_spec by auto. unfold gather. rewrite skipn_map. reflexivity.
Qed.

Lemma strides_ok perm dims : is_permutation perm (length dims) ->
  (forall i k, zprod (firstn k (skipn (S i) (gather perm dims))) <= hi) ->
  m_calculateStrides hi perm (ZN dims) = Ok (ZN (calculateStrides perm dims)).
Proof.
  intros P B. unfold m_calculateStrides.
  replace (map (fun p => nth p (ZN dims) 0) perm) with (ZN (gather perm dims)).
  2:{ unfold gather. rewrite map_map. apply map_ext. intros p. symmetry. apply (map_nth Z.of_nat dims 0%nat). }
  rewrite folded_ok by exact B. cbn [bind]. rewrite folded_eq by exact P.
  unfold calculateStrides, scatter. rewrite scatter_map, map_length. f_equal. f_equal.
  clear. induction (length dims); cbn; [reflexivity|f_equal; exact IHn].
Qed.
Lemma strides_over perm dims : (exists i k, hi < zprod (firstn k (skipn (S i) (gather perm dims)))) ->
  m_calculateStrides hi perm (ZN dims) = Fault FOverflow.
Proof.
  intros B. unfold m_calculateStrides.
  replace (map (fun p => nth p (ZN dims) 0) perm) with (ZN (gather perm dims)).
  2:{ unfold gather. rewrite map_map. apply map_ext. intros p. symmetry. apply (map_nth Z.of_nat dims 0%nat). }
  rewrite folded_over by exact B. reflexivity.
Qed.

Lemma getLinear_nonneg : forall ss usd idx, Forall (fun i => 0 <= i) idx -> 0 <= getLinearIndex usd ss idx.
Proof.
  induction ss as [|s ss IH]; intros usd idx F; [cbn; lia|]. destruct F as [|i ii I F]; [cbn; lia|].
  assert (0 <= condMultiply (usd =? 0) i s) by (unfold condMultiply; destruct (usd =? 0); nia).
  cbn [getLinearIndex]. destruct ii as [|j jj]; [assumption|]. specialize (IH (usd - 1) (j :: jj) F). lia.
Qed.
Lemma getLinear_ok : forall ss usd idx, Forall (fun i => 0 <= i) idx -> getLinearIndex usd ss idx <= hi ->
  m_getLinearIndex hi usd (ZN ss) idx = Ok (getLinearIndex usd ss idx).
Proof.
  induction ss as [|s ss IH]; intros usd idx F B; [reflexivity|]. destruct F as [|i ii I F]; [reflexivity|].
  assert (C : 0 <= condMultiply (usd =? 0) i s) by (unfold condMultiply; destruct (usd =? 0); nia).
  assert (M : condMultiply (usd =? 0) i s <= hi -> m_condMultiply hi (usd =? 0) i (Z.of_nat s) = Ok (condMultiply (usd =? 0) i s)).
  { unfold condMultiply in *. unfold m_condMultiply. destruct (usd =? 0); [reflexivity|]. intros K. unfold mmul. apply mret_ok. lia. }
  cbn [map m_getLinearIndex getLinearIndex] in *. destruct ii as [|j jj]; [apply M; exact B|].
  pose proof (@getLinear_nonneg ss (usd - 1) (j :: jj) F).
  rewrite M by lia. cbn [bind]. rewrite IH by (auto; lia). cbn [bind]. unfold madd. apply mret_ok. lia.
Qed.

(** Growing and shrinking one extent. *)
Lemma grow_iters_ok toAdd toShift : 0 <= toAdd -> 0 <= toShift -> forall n,
  toAdd * Z.of_nat n <= hi -> toShift * Z.of_nat n <= hi ->
  m_grow_iters hi n toAdd toShift =
  Ok (map (fun i => (toShift * Z.of_nat i, toShift, toAdd * Z.of_nat i)) (rev (seq 0 n))).
Proof.
  intros A B. induction n as [|n IH]; intros HA HB; [reflexivity|]. cbn [m_grow_iters].
  unfold mmul. rewrite !mret_ok by nia. cbn [bind]. rewrite IH by nia. cbn [bind].
  rewrite seq_S, rev_app_distr. reflexivity.
Qed.
Lemma grow_ok len stride outer newLen : 0 <= len < newLen -> 0 < stride -> 0 < outer ->
  stride * newLen * outer <= hi ->
  m_grow hi len stride (stride * len * outer) newLen (stride * newLen * outer) =
  Ok (stride * (newLen - len),
      map (fun i => (stride * len * Z.of_nat i, stride * len, stride * (newLen - len) * Z.of_nat i)) (rev (seq 0 (Z.to_nat outer)))).
Proof.
  intros L S O B. unfold m_grow, msub, mmul, mdiv.
  assert (stride * newLen <= hi) by nia. assert (newLen <= hi) by nia. assert (0 < stride * (newLen - len)) by nia.
  assert (E : stride * newLen * outer - stride * len * outer = outer * (stride * (newLen - len))) by ring.
  assert (stride * len * outer <= stride * newLen * outer) by nia.
  assert (0 <= stride * len * outer) by nia. assert (outer <= hi) by nia.
  rewrite (@mret_ok (newLen - len)) by lia. cbn [bind].
  rewrite (@mret_ok (stride * (newLen - len))) by nia. cbn [bind].
  rewrite (@mret_ok (stride * len)) by nia. cbn [bind].
  rewrite (@mret_ok (stride * newLen * outer - stride * len * outer)) by lia. cbn [bind].
  destruct (Z.eqb_spec (stride * (newLen - len)) 0) as [Z0|_]; [lia|].
  rewrite E, Z.quot_mul by lia. rewrite mret_ok by lia. cbn [bind].
  rewrite grow_iters_ok; [reflexivity|lia|nia| |]; rewrite Z2Nat.id by lia; nia.
Qed.
Lemma shrink_iters_ok toRemove toShift : 0 <= toRemove -> 0 <= toShift -> forall n i, 0 <= i ->
  (toShift + toRemove) * (i + Z.of_nat n) <= hi -> i + Z.of_nat n <= hi ->
  m_shrink_iters hi n i toRemove toShift =
  Ok (map (fun k => (toShift * (i + Z.of_nat k), toShift + toRemove * (i + Z.of_nat k), toRemove * (i + Z.of_nat k))) (seq 0 n)).
Proof.
  intros A B. induction n as [|n IH]; intros i I HA HB; [reflexivity|]. cbn [m_shrink_iters].
  unfold mmul, madd. 
  assert (toRemove * i <= hi) by nia. assert (toShift * i <= hi) by nia.
  assert (toShift + toRemove * i <= hi) by nia.
  rewrite (@mret_ok (toRemove * i)), (@mret_ok (toShift * i)) by nia. cbn [bind].
  rewrite (@mret_ok (toShift + toRemove * i)) by nia. cbn [bind]. rewrite (@mret_ok (i + 1)) by lia. cbn [bind].
  rewrite IH; [|lia|nia|lia]. cbn [bind]. cbn [seq map]. rewrite Z.add_0_r. f_equal. f_equal.
  rewrite <- seq_shift, map_map. apply map_ext. intros k. replace (i + 1 + Z.of_nat k) with (i + Z.of_nat (S k)) by lia. reflexivity.
Qed.
Lemma shrink_ok len stride outer newLen : 0 <= newLen < len -> 0 < stride -> 0 < outer ->
  stride * len * outer <= hi ->
  m_shrink hi len stride (stride * len * outer) newLen (stride * newLen * outer) =
  Ok (stride * len * outer - stride * newLen * outer,
      map (fun k => let i := Z.of_nat k in
             (stride * newLen * i, stride * newLen + stride * (len - newLen) * i, stride * (len - newLen) * i))
          (seq 1 (Z.to_nat (outer - 1)))).
Proof.
  intros L S O B. unfold m_shrink, msub, mmul, mdiv.
  assert (stride * len <= hi) by nia. assert (len <= hi) by nia. assert (0 < stride * (len - newLen)) by nia.
  assert (E : stride * len * outer - stride * newLen * outer = outer * (stride * (len - newLen))) by ring.
  assert (stride * newLen * outer <= stride * len * outer) by nia.
  assert (0 <= stride * newLen * outer) by nia. assert (outer <= hi) by nia.
  rewrite (@mret_ok (len - newLen)) by lia. cbn [bind].
  rewrite (@mret_ok (stride * (len - newLen))) by nia. cbn [bind].
  rewrite (@mret_ok (stride * newLen)) by nia. cbn [bind].
  rewrite (@mret_ok (stride * len * outer - stride * newLen * outer)) by lia. cbn [bind].
  destruct (Z.eqb_spec (stride * (len - newLen)) 0) as [Z0|_]; [lia|].
  rewrite E, Z.quot_mul by lia. rewrite mret_ok by lia. cbn [bind].
  rewrite shrink_iters_ok; [|lia|nia|lia|rewrite Z2Nat.id by lia; nia|lia]. cbn [bind].
  rewrite mret_ok by nia. cbn [bind]. f_equal. f_equal; [ring|].
  rewrite <- seq_shift, map_map. apply map_ext. intros k. cbv zeta. replace (1 + Z.of_nat k) with (Z.of_nat (Datatypes.S k)) by lia. reflexivity.
Qed.

(** The binary search. *)
Lemma find_no_overflow less : forall fuel lower upper, 0 <= lower <= upper -> 2 * upper - 1 <= hi ->
  upper - lower <= Z.of_nat fuel -> exists r, m_find hi fuel less lower upper = Ok r /\ lower <= r <= upper.
Proof.
  induction fuel as [|n IH]; intros lower upper A B F; cbn [m_find].
  - destruct (Z.eqb_spec lower upper); [eexists; split; [reflexivity|lia]|lia].
  - destruct (Z.eqb_spec lower upper); [eexists; split; [reflexivity|lia]|].
    unfold madd, mdiv. rewrite mret_ok by lia. cbn [bind]. cbn [Z.eqb].
    assert (Q : Z.quot (lower + upper) 2 = (lower + upper) / 2) by (apply Z.quot_div_nonneg; lia).
    rewrite Q. pose proof (Z.div_le_lower_bound (lower + upper) 2 lower). pose proof (Z.div_lt_upper_bound (lower + upper) 2 upper).
    rewrite mret_ok by lia. cbn [bind]. destruct (less _).
    + rewrite mret_ok by lia. cbn [bind]. destruct (IH ((lower + upper) / 2 + 1) upper) as (r & -> & R); try lia. eexists; split; [reflexivity|lia].
    + destruct (IH lower ((lower + upper) / 2)) as (r & -> & R); try lia. eexists; split; [reflexivity|lia].
Qed.
Lemma find_overflow : forall fuel lower upper, 0 <= lower < upper -> upper <= hi -> hi < 2 * upper - 2 ->
  upper - lower <= Z.of_nat fuel -> m_find hi fuel (fun _ => true) lower upper = Fault FOverflow.
Proof.
  induction fuel as [|n IH]; intros lower upper A U B F; cbn [m_find].
  - lia.
  - destruct (Z.eqb_spec lower upper); [lia|]. unfold madd, mdiv.
    destruct (Z.leb_spec (lower + upper) hi) as [L|L]; [|rewrite mret_over by lia; reflexivity].
    rewrite mret_ok by lia. cbn [bind]. cbn [Z.eqb].
    assert (Q : Z.quot (lower + upper) 2 = (lower + upper) / 2) by (apply Z.quot_div_nonneg; lia).
    rewrite Q. pose proof (Z.div_le_lower_bound (lower + upper) 2 lower). pose proof (Z.div_lt_upper_bound (lower + upper) 2 upper).
    rewrite mret_ok by lia. cbn [bind]. rewrite mret_ok by lia. cbn [bind].
    apply IH; try lia. assert ((lower + upper) / 2 < upper - 1); [|lia]. apply Z.div_lt_upper_bound; lia.
Qed.
End M.

Lemma max_prod_sub : forall ds : list nat, (1 <= extent_product (map (Nat.max 1) ds))%nat.
Proof. induction ds as [|d ds IH]; cbn [map]; [cbn; lia|]. change (1 <= Nat.max 1 d * extent_product (map (Nat.max 1) ds))%nat. nia. Qed.
Lemma prod_le_max : forall ds, (extent_product ds <= extent_product (map (Nat.max 1) ds))%nat.
Proof.
  induction ds as [|d ds IH]; [cbn; lia|]. cbn [map].
  change (d * extent_product ds <= Nat.max 1 d * extent_product (map (Nat.max 1) ds))%nat. nia.
Qed.
Lemma skipn_max ds : forall k, (extent_product (map (Nat.max 1) (skipn k ds)) <= extent_product (map (Nat.max 1) ds))%nat.
Proof.
  induction ds as [|d ds IH]; intros [|k]; cbn [skipn map]; try lia.
  change (extent_product (Nat.max 1 d :: map (Nat.max 1) ds)) with (Nat.max 1 d * extent_product (map (Nat.max 1) ds))%nat.
  specialize (IH k). nia.
Qed.
Lemma firstn_max ds : forall k, (extent_product (map (Nat.max 1) (firstn k ds)) <= extent_product (map (Nat.max 1) ds))%nat.
Proof.
  induction ds as [|d ds IH]; intros [|k]; cbn [firstn map]; try lia.
  - apply (max_prod_sub (d :: ds)).
  - change (Nat.max 1 d * extent_product (map (Nat.max 1) (firstn k ds)) <= Nat.max 1 d * extent_product (map (Nat.max 1) ds))%nat.
    specialize (IH k). nia.
Qed.
Lemma gather_max perm dims : is_permutation perm (length dims) ->
  extent_product (map (Nat.max 1) (gather perm dims)) = extent_product (map (Nat.max 1) dims).
Proof.
  intros P. apply prod_perm. apply Permutation_map. unfold gather.
  etransitivity; [apply Permutation_map; exact P|]. rewrite map_nth_seq. reflexivity.
Qed.
