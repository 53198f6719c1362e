(** Growth of a one dimensional Array, and calls whose argument lies in the array itself. *)
From Coq Require Import List Arith ZArith Lia Bool Permutation.
From Verif Require Import Base BaseProofs Mem MemProofs ArrayManipProofs BufferManipProofs.
From Verif Require Import Indexing IndexingSpec IndexingProofs IndexingProofs2 IndexingProofs3 Array ArraySpec.
From Verif Require Import ArrayProofs ArrayProofs2 ArrayProofs3.
From Verif Require ArrayManip BufferManip.
Import ListNotations.
Set Implicit Arguments.
Unset Strict Implicit.

(** reallocations and elements moved by n appends starting with size s and capacity c *)
Fixpoint grow (n s c : nat) : nat * nat :=
  match n with
  | 0 => (0, 0)
  | S n' => let c' := if c <? s + 1 then 2 * (s + 1) else c in
            let r := grow n' (s + 1) c' in
            if c =? c' then r else (S (fst r), s + snd r)
  end.

Lemma grow_bounds n : forall s c, s <= c ->
  let '(k, m) := grow n s c in
  (k = 0 /\ m = 0) \/ (1 <= k /\ (c + 2) * 2 ^ (k - 1) <= s + n + 1 /\ m + 2 * k + (c + 2) = (c + 2) * 2 ^ k).
Proof.
  induction n as [|n IH]; intros s c H; cbn [grow]; [left; auto|].
  destruct (Nat.ltb_spec c (s + 1)).
  - assert (c = s) by lia. subst c. destruct (Nat.eqb_spec s (2 * (s + 1))); [lia|].
    specialize (IH (s + 1) (2 * (s + 1))). destruct (grow n (s + 1) (2 * (s + 1))) as [k m]. cbn [fst snd].
    destruct IH as [[-> ->]|(K & B & M)]; [lia| |]; right.
    + simpl. lia.
    + split; [lia|]. replace (S k - 1) with (S (k - 1)) by lia. cbn [Nat.pow]. split; [lia|].
      change (2 ^ S k) with (2 * 2 ^ k). lia.
  - rewrite Nat.eqb_refl. specialize (IH (s + 1) c). destruct (grow n (s + 1) c) as [k m].
    destruct IH as [?|(K & B & M)]; [lia|auto|]. right. repeat split; auto. lia.
Qed.

Lemma grow_final n s c : s <= c -> 0 < s + n ->
  fst (grow n s c) <= Nat.log2 (s + n) + 1 /\ snd (grow n s c) < 2 * (s + n).
Proof.
  intros H N. pose proof (grow_bounds n H) as G. destruct (grow n s c) as [k m]. cbn [fst snd].
  destruct G as [[-> ->]|(K & B & M)]; [lia|].
  assert (E : 2 ^ k = 2 * 2 ^ (k - 1)) by (replace k with (S (k - 1)) at 1 by lia; reflexivity).
  split.
  - assert (2 ^ (k - 1) <= s + n).
    { assert (2 ^ (k - 1) <> 0) by (apply Nat.pow_nonzero; lia). nia. }
    assert (k - 1 <= Nat.log2 (s + n)) by (apply Nat.log2_le_pow2; lia). lia.
  - rewrite E in M. nia.
Qed.

Section Grow.
Variable V : Type.
Variable chk triv : bool.
Variable dflt : V.
Notation array := (array V).
Notation holds := (@holds V triv).
Notation arr_ok := (@arr_ok V triv [0]).
Notation step := (vstep chk triv BufferManip.BMalloc [0] dflt).

Lemma visited_grow vs : forall a l, arr_ok a l ->
  oks (visited step (map (@VEmplaceBack V) vs) a)
      (fun st => (exists rest, st = a :: rest) /\
                 (reallocations st, moved st) = grow (length vs) (length l) (capacity a)).
Proof.
  induction vs as [|v vs IH]; intros a l A; cbn [map visited].
  - apply oks_ok. split; [eauto|]. reflexivity.
  - eapply oks_bind.
    + eapply (@vstep_ok V chk triv BufferManip.BMalloc dflt (VEmplaceBack v) a l (l ++ [v]) A eq_refl). left. auto.
    + intros a1 [A1 C1]. cbn [capacity_after] in C1. eapply oks_bind; [apply IH; exact A1|].
      intros st [(rest & ->) G]. apply oks_ok. split; [eauto|].
      rewrite app_length in G. cbn [length] in G.
      change (length (a_buf a1)) with (capacity a1) in C1.
      change (length (a_buf a)) with (capacity a) in C1.
      assert (E1 : reallocations (a :: a1 :: rest) =
                   (if capacity a =? capacity a1 then 0 else 1) + reallocations (a1 :: rest)) by reflexivity.
      assert (E2 : moved (a :: a1 :: rest) =
                   (if capacity a =? capacity a1 then 0 else size a) + moved (a1 :: rest)) by reflexivity.
      rewrite E1, E2, (size_ok A). cbn [length grow]. rewrite <- C1, <- G.
      destruct (capacity a =? capacity a1); reflexivity.
Qed.

Lemma arr_cap a l : arr_ok a l -> length l <= capacity a.
Proof. intros (_ & _ & _ & _ & H). apply holds_cap in H. exact H. Qed.

Variable kind : BufferManip.bkind.

Lemma self_ok a l i v : arr_ok a l -> nth_error l i = Some v -> length l < capacity a ->
  oks (emplace_back_self chk triv kind a i) (fun a' => arr_ok a' (l ++ [v]) /\ capacity a' = capacity a).
Proof.
  intros A N C. assert (Hi : i < length l) by (apply nth_error_Some; congruence).
  pose proof A as (_ & _ & _ & _ & H). pose proof (size_ok A) as SZ.
  unfold emplace_back_self. rewrite SZ.
  assert (E : BufferManip.emplaceBackSelf chk triv kind (a_buf a) (length l) i =
              BufferManip.emplaceBack chk triv kind (a_buf a) (length l) v).
  { unfold BufferManip.emplaceBackSelf, BufferManip.emplaceBack. unfold capacity in C.
    rewrite check_ok by (exact (holds_cap H)). cbn [bind]. unfold BufferManip.dynamicReserve.
    rewrite check_ok by (exact (holds_cap H)). cbn [bind].
    destruct (Nat.ltb_spec (BufferManip.capacity (a_buf a)) (length l + 1)); [lia|]. cbn [bind].
    erewrite holds_rd by eauto. reflexivity. }
  rewrite E. eapply oks_bind.
  - apply emplaceBack_ok; eauto. right. unfold capacity, BufferManip.capacity in C. lia.
  - intros b [Hb Lb]. apply oks_ok. split.
    + eapply dim0; eauto. apply arr1 in A. destruct A as (D & _). rewrite D. cbn. rewrite app_length. reflexivity.
    + unfold capacity, BufferManip.capacity in *. cbn. rewrite Lb.
      destruct (Nat.ltb_spec (length (a_buf a)) (length l + 1)); lia.
Qed.

Lemma self_full a l i : arr_ok a l -> capacity a = length l ->
  (kind = BufferManip.BMalloc -> emplace_back_self chk triv kind a i = Fault FDangling) /\
  (kind = BufferManip.BStack (capacity a) -> emplace_back_self chk triv kind a i = Abort).
Proof.
  intros A C. pose proof A as (_ & _ & _ & _ & H). pose proof (size_ok A) as SZ. unfold emplace_back_self. rewrite SZ.
  unfold BufferManip.emplaceBackSelf. rewrite check_ok by (exact (holds_cap H)). cbn [bind]. split; intros K.
  - destruct (@dynamicReserve_ok V chk triv kind (a_buf a) l (length l + 1) H (or_introl K)) as (b1 & E1 & _ & _).
    rewrite E1. cbn [bind]. unfold capacity in C. destruct (Nat.ltb_spec (BufferManip.capacity (a_buf a)) (length l + 1)); [|lia].
    rewrite K. reflexivity.
  - unfold BufferManip.dynamicReserve. rewrite check_ok by (exact (holds_cap H)). cbn [bind].
    unfold capacity in *. destruct (Nat.ltb_spec (BufferManip.capacity (a_buf a)) (length l + 1)); [|lia].
    unfold BufferManip.setCapacity. rewrite check_ok by (exact (holds_cap H)). cbn [bind].
    unfold BufferManip.reallocate. rewrite K. cbn [bind].
    destruct (Nat.ltb_spec (BufferManip.capacity (a_buf a)) (2 * (length l + 1))); [reflexivity|lia].
Qed.

(** emplace( pos, a[ i ] ) with room to spare. *)
Lemma emplace_self_ok a xs ys i : arr_ok a (xs ++ ys) -> length (xs ++ ys) < capacity a -> i < length (xs ++ ys) ->
  (forall v, i < length xs -> nth_error (xs ++ ys) i = Some v ->
     oks (emplace_self chk triv kind a (Z.of_nat (length xs)) i) (fun a' => arr_ok a' (xs ++ v :: ys))) /\
  (forall v, length xs < i -> nth_error (xs ++ ys) (i - 1) = Some v ->
     oks (emplace_self chk triv kind a (Z.of_nat (length xs)) i) (fun a' => arr_ok a' (xs ++ v :: ys))) /\
  (i = length xs -> triv = false -> emplace_self chk triv kind a (Z.of_nat (length xs)) i = Fault FRead).
Proof.
  intros A C Hi. pose proof A as (_ & _ & _ & _ & H). pose proof (size_ok A) as SZ. unfold capacity in C.
  pose proof (holds_cap H) as HC.
  assert (PRE : forall (X : buf V -> outcome array) Q, oks (bind (ArrayManip.emplaceSelf chk triv (a_buf a) 0 (length (xs ++ ys)) (length xs) i) X) Q ->
            oks (bind (BufferManip.emplaceSelf chk triv kind (a_buf a) (size a) (Z.of_nat (length xs)) i) X) Q).
  { intros X Q O. rewrite SZ. unfold BufferManip.emplaceSelf. rewrite checkInsert_ok by (auto; rewrite app_length; lia).
    cbn [bind]. unfold BufferManip.dynamicReserve. rewrite check_ok by auto. cbn [bind].
    destruct (Nat.ltb_spec (BufferManip.capacity (a_buf a)) (length (xs ++ ys) + 1)); [lia|]. cbn [bind].
    rewrite to_ix_nat. cbn [bind]. exact O. }
  destruct H as [k M]. pose proof (mem_length M) as EL. unfold BufferManip.capacity in C.
  rewrite app_length, map_length, repeat_length in EL. destruct k as [|k]; [lia|].
  assert (SU : oks (ArrayManip.shiftUp chk triv (a_buf a) 0 (length (xs ++ ys)) (length xs) 1)
     (fun b' => mem triv b' (map LV xs ++ LN :: map LV ys ++ repeat LN k))).
  { eapply oks_mono; [eapply (@shiftUp_ok V chk triv _ [] xs ys 1 (repeat LN k)); cbn; auto|].
    - eapply mem_cast; [exact M|]. rewrite map_app, <- app_assoc. reflexivity.
    - rewrite app_length. reflexivity.
    - intros b' Hb. exact Hb. }
  assert (MAIN : forall v, (i < length xs /\ nth_error xs i = Some v) \/ (length xs < i /\ nth_error ys (i - 1 - length xs) = Some v) ->
     oks (emplace_self chk triv kind a (Z.of_nat (length xs)) i) (fun a' => arr_ok a' (xs ++ v :: ys))).
  { intros v Hv. unfold emplace_self. apply PRE.
    assert (O : oks (ArrayManip.emplaceSelf chk triv (a_buf a) 0 (length (xs ++ ys)) (length xs) i)
                (fun b => holds b (xs ++ v :: ys))).
    { unfold ArrayManip.emplaceSelf. unfold ArrayManip.check_insert_bounds.
      rewrite check_if_ok by (apply Nat.ltb_ge; rewrite app_length; lia). cbn [bind].
      eapply oks_bind; [exact SU|]. intros b1 M1. cbn beta in M1.
      rewrite (@rd_nth V triv b1 _ (0 + i) v M1).
      - cbn [bind]. eapply oks_mono; [eapply construct_ok; [exact M1|rewrite map_length; reflexivity|exact I]|].
        intros b2 M2. exists k. eapply mem_cast; [exact M2|]. rewrite map_app. cbn [map]. rewrite <- app_assoc. reflexivity.
      - cbn [Nat.add]. destruct Hv as [[L N]|[L N]].
        + rewrite nth_error_app1 by (rewrite map_length; lia). apply map_nth_error. exact N.
        + rewrite nth_error_app2 by (rewrite map_length; lia). rewrite map_length.
          replace (i - length xs) with (S (i - 1 - length xs)) by lia. cbn [nth_error].
          assert (i - 1 - length xs < length ys) by (apply nth_error_Some; congruence).
          rewrite nth_error_app1 by (rewrite map_length; lia). apply map_nth_error. exact N. }
    eapply oks_bind; [exact O|]. intros b Hb. apply oks_ok. eapply dim0; eauto.
    apply arr1 in A. destruct A as (D & _). rewrite D. cbn. rewrite !app_length. cbn. lia. }
  split; [|split].
  - intros v L N. apply MAIN. left. split; auto. rewrite nth_error_app1 in N; auto.
  - intros v L N. apply MAIN. right. split; auto. rewrite nth_error_app2 in N by lia. exact N.
  - intros -> T. unfold emplace_self.
    assert (O : ArrayManip.emplaceSelf chk triv (a_buf a) 0 (length (xs ++ ys)) (length xs) (length xs) = Fault FRead).
    { unfold ArrayManip.emplaceSelf. unfold ArrayManip.check_insert_bounds.
      rewrite check_if_ok by (apply Nat.ltb_ge; rewrite app_length; lia). cbn [bind].
      destruct SU as (b1 & E1 & M1). rewrite E1. cbn [bind]. apply mem_split in M1.
      destruct M1 as (bp & bc & bs & -> & _ & R & _ & Lp). rewrite map_length in Lp.
      cbn in R. destruct R as [R|R]; [congruence|]. subst bc. unfold rd. rewrite aget_mid by auto. reflexivity. }
    rewrite SZ. unfold BufferManip.emplaceSelf. rewrite checkInsert_ok by (auto; rewrite app_length; lia).
    cbn [bind]. unfold BufferManip.dynamicReserve. rewrite check_ok by auto. cbn [bind].
    unfold BufferManip.capacity. destruct (Nat.ltb_spec (length (a_buf a)) (length (xs ++ ys) + 1)); [lia|]. cbn [bind].
    rewrite to_ix_nat. cbn [bind]. rewrite O. reflexivity.
Qed.
End Grow.
