(** Calls of ArrayOfArrays with elements of the array itself as arguments. *)
From Coq Require Import List Arith ZArith Lia Bool.
From Verif Require Import Base BaseProofs Mem MemProofs BufferManip AoA AoASpec AoALayout AoAProofs AoAProofs2 AoAProofs3 OwnRange OwnRangeProofs OwnRangeProofs2.
From Verif Require ArrayManip BufferManipProofs.
Import ListNotations.
Set Implicit Arguments.
Unset Strict Implicit.

Section Own.
Variable V W : Type.
Variable chk tv tw : bool.
Variable fw : V -> W.
Notation kind := BMalloc.
Notation dual := false.
Notation aoa := (aoa V W).
Notation row := (list V * nat)%type.
Notation rows := (list row).
Notation idv := (fun v : V => v).
Notation aok := (@aok V V W idv fw tv tw false).
Notation iok := (@iok V V W).
Implicit Types a : aoa.
Implicit Types L A B : rows.
Notation sub rk l n := (firstn n (skipn l rk)).

Lemma sub_length (X : Type) (r : list X) l n : l + n <= length r -> length (sub r l n) = n.
Proof. intros H. rewrite firstn_length, skipn_length. lia. Qed.
Lemma total_firstn_le L k k' : k <= k' -> total (firstn k L) <= total (firstn k' L).
Proof.
  revert k k'. induction L as [|x L IH]; intros k k' H; [rewrite !firstn_nil; lia|].
  destruct k as [|k]; [cbn; lia|]. destruct k' as [|k']; [lia|]. cbn [firstn total]. specialize (IH k k'). lia.
Qed.
Lemma total_firstn_S L k rk g : nth_error L k = Some (rk, g) -> total (firstn (S k) L) = total (firstn k L) + (length rk + g).
Proof.
  revert k. induction L as [|x L IH]; intros [|k] H; try discriminate.
  - cbn in H. injection H as ->. cbn. unfold wid. cbn. lia.
  - cbn [firstn total]. cbn [nth_error] in H. specialize (IH k H). cbn [firstn total] in IH. lia.
Qed.
Lemma address_at a L k l : iok a L -> k < length L -> address chk a k l = Ok (total (firstn k L) + l).
Proof. intros I H. unfold address. rewrite (check_array_at chk I H). cbn [bind]. rewrite (offset_at I) by lia. reflexivity. Qed.

(** Where the slots of a row not after row [length A] are, and what they hold after row [length A] has grown. *)
Lemma grown_reads a A r g B k rk gk l n inc : aok a (A ++ (r, g) :: B) -> moves a A r g B inc = false ->
  nth_error (A ++ (r, g) :: B) k = Some (rk, gk) -> l + n <= length rk -> k <= length A \/ inc <= g ->
  exists a1, growOwn chk tv tw dual kind a (length A) inc = Ok a1 /\ dynamicallyGrowArray chk tv tw dual kind a (length A) inc = Ok a1 /\
    aok a1 (A ++ (r, grown (length r) (length r + g) inc - length r) :: B) /\
    reads (vals a1) (total (firstn k (A ++ (r, g) :: B)) + l) (sub rk l n).
Proof.
  intros H Mv N Ln Kd. destruct (grow_stay chk H Mv) as (a1 & G & D & H1 & _ & Same). exists a1. repeat (split; [assumption|]).
  apply reads_sub; [|exact Ln]. destruct Kd as [Kd|Kd]; [|rewrite (Same Kd); eapply row_reads; eauto].
  set (g' := grown (length r) (length r + g) inc - length r) in *.
  assert (F : firstn k (A ++ (r, g) :: B) = firstn k (A ++ (r, g') :: B)).
  { rewrite !firstn_app. replace (k - length A) with 0 by lia. reflexivity. }
  rewrite F. destruct (Nat.eq_dec k (length A)) as [->|].
  - rewrite row_nth in N. injection N as <- <-. eapply row_reads; [exact H1|apply row_nth].
  - rewrite nth_error_app1 in N by lia. eapply row_reads; [exact H1|]. rewrite nth_error_app1 by lia. exact N.
Qed.
Lemma before A r g B k rk gk l n : nth_error (A ++ (r, g) :: B) k = Some (rk, gk) -> l + n <= length rk -> k < length A ->
  total (firstn k (A ++ (r, g) :: B)) + l + n <= total A.
Proof.
  intros N Ln H. pose proof (total_firstn_S N) as E. pose proof (@total_firstn_le (A ++ (r, g) :: B) (S k) (length A)) as Q.
  rewrite (@firstn_app_exact _ A _ (length A) eq_refl) in Q. specialize (Q H). lia.
Qed.
Lemma after A r g B k : length A < k -> total A + (length r + g) <= total (firstn k (A ++ (r, g) :: B)).
Proof.
  intros H. pose proof (@total_firstn_le (A ++ (r, g) :: B) (S (length A)) k H) as Q.
  rewrite (total_firstn_S (row_nth A (r, g) B)) in Q. rewrite firstn_app_exact in Q by auto. exact Q.
Qed.
Lemma row_total a A r g B : iok a (A ++ (r, g) :: B) -> offset a (length A) = Ok (total A).
Proof. intros I. rewrite (offset_at I) by len. rewrite firstn_app_exact by auto. reflexivity. Qed.

(** The range does not overlap the slots which are written. *)
Definition where_append A (g : nat) (k n : nat) : Prop := k <= length A \/ n <= g.
Lemma append_apart A r g B k rk gk l n : nth_error (A ++ (r, g) :: B) k = Some (rk, gk) -> l + n <= length rk -> where_append A g k n ->
  apart (total (firstn k (A ++ (r, g) :: B)) + l) (total A + length r) n.
Proof.
  intros N Ln Wh. destruct (Nat.lt_trichotomy k (length A)) as [Lt|[->|Gt]].
  - pose proof (before N Ln Lt). left. lia.
  - rewrite row_nth in N. injection N as <- <-. rewrite firstn_app_exact by auto. left. lia.
  - destruct Wh as [|Hg]; [lia|]. pose proof (@after A r g B k Gt). right. lia.
Qed.
Lemma appendOwn_ok a A r g B k rk gk l n : aok a (A ++ (r, g) :: B) -> moves a A r g B n = false ->
  nth_error (A ++ (r, g) :: B) k = Some (rk, gk) -> l + n <= length rk -> where_append A g k n ->
  oks (aoa_appendToArrayOwn chk tv tw dual kind a (length A) k l n) (fun a' =>
    aoa_appendToArray chk tv tw dual kind a (length A) (sub rk l n) = Ok a' /\
    aok a' (A ++ (r ++ sub rk l n, grown (length r) (length r + g) n - (length r + n)) :: B)).
Proof.
  intros H Mv N Ln Wh. destruct (grown_reads H Mv N Ln Wh) as (a1 & G & D & H1 & R1).
  assert (Ls : length (sub rk l n) = n) by (apply sub_length; exact Ln).
  unfold aoa_appendToArrayOwn, aoa_appendToArray. rewrite (address_at l (proj1 H)) by (apply nth_error_Some; congruence). cbn [bind].
  rewrite Ls, G, D. cbn [bind].
  assert (Eq : v_appendToArrayOwn chk tv a1 (length A) (total (firstn k (A ++ (r, g) :: B)) + l) n = v_appendToArray chk tv a1 (length A) (sub rk l n)).
  { unfold v_appendToArrayOwn, v_appendToArray. rewrite (row_check chk (proj1 H1)). cbn [bind].
    rewrite (row_total (proj1 H1)), (row_size chk (proj1 H1)). cbn [bind]. rewrite <- Ls at 1. rewrite appendOwn_append; auto.
    rewrite Ls. apply append_apart with (rk := rk) (gk := gk); auto. }
  rewrite Eq. destruct (@v_append_ok V W chk tv tw fw _ _ _ _ _ (sub rk l n) H1) as (a' & E' & H').
  { rewrite Ls. pose proof (grown_ge (length r) g n). lia. }
  rewrite E'. apply oks_ok. split; [reflexivity|]. rewrite Nat.sub_add_distr. rewrite Ls in H'. exact H'.
Qed.
Lemma sub1 (rk : list V) l v : nth_error rk l = Some v -> sub rk l 1 = [v].
Proof.
  intros N. apply nth_error_split in N. destruct N as (x & y & -> & <-).
  rewrite skipn_app, skipn_all, Nat.sub_diag. reflexivity.
Qed.
Lemma slot_at a L k rk gk l : iok a L -> nth_error L k = Some (rk, gk) -> l < length rk -> slot chk a k l = Ok (total (firstn k L) + l).
Proof.
  intros I N Hl. apply nth_error_split in N. destruct N as (A & B & -> & <-). unfold slot. rewrite (row_check2 chk I Hl). cbn [bind].
  rewrite (row_total I), firstn_app_exact by auto. reflexivity.
Qed.
Lemma emplaceBackOwn_ok a A r g B k rk gk l v : aok a (A ++ (r, g) :: B) -> moves a A r g B 1 = false ->
  nth_error (A ++ (r, g) :: B) k = Some (rk, gk) -> nth_error rk l = Some v -> where_append A g k 1 ->
  oks (aoa_emplaceBackOwn chk tv tw dual kind a (length A) k l) (fun a' =>
    aoa_emplaceBack chk tv tw dual kind a (length A) v = Ok a' /\
    aok a' (A ++ (r ++ [v], grown (length r) (length r + g) 1 - (length r + 1)) :: B)).
Proof.
  intros H Mv N Nl Wh. assert (Hl : l < length rk) by (apply nth_error_Some; congruence).
  destruct (@grown_reads a A r g B k rk gk l 1 1 H Mv N) as (a1 & G & D & H1 & R1); [lia|exact Wh|].
  rewrite (sub1 Nl) in R1. pose proof (R1 0 v eq_refl) as R0. rewrite Nat.add_0_r in R0.
  unfold aoa_emplaceBackOwn, aoa_emplaceBack. rewrite (slot_at (proj1 H) N Hl). cbn [bind]. rewrite G, D. cbn [bind].
  pose proof (grown_ge (length r) g 1) as Gg.
  destruct (grown (length r) (length r + g) 1 - length r) as [|g1] eqn:Eg; [lia|].
  replace (grown (length r) (length r + g) 1 - (length r + 1)) with g1 by lia.
  assert (Eq : v_emplaceBackOwn chk tv a1 (length A) (total (firstn k (A ++ (r, g) :: B)) + l) = v_emplaceBack chk tv a1 (length A) v).
  { unfold v_emplaceBackOwn, v_emplaceBack. rewrite (row_total (proj1 H1)), (row_size chk (proj1 H1)).
    unfold emplaceBackOwn, ArrayManip.emplaceBack. rewrite R0. reflexivity. }
  rewrite Eq. destruct (@v_emplaceBack_ok V W chk tv tw fw _ _ _ _ _ v H1) as (a' & E' & H'). rewrite E'. apply oks_ok. split; [reflexivity|exact H'].
Qed.
(** For insertions at position [j] the range also has to stay clear of what is shifted up. *)
Definition where_insert A (g : nat) (k l n j : nat) : Prop := k < length A \/ (k = length A /\ l + n <= j) \/ n <= g /\ length A < k.
Lemma insert_still A r g B k rk gk l n j : nth_error (A ++ (r, g) :: B) k = Some (rk, gk) -> l + n <= length rk -> where_insert A g k l n j ->
  still (total A) (length r) j (total (firstn k (A ++ (r, g) :: B)) + l) n.
Proof.
  intros N Ln [Lt|[[-> Lj]|[Hg Gt]]].
  - pose proof (before N Ln Lt). left. lia.
  - rewrite firstn_app_exact by auto. left. lia.
  - pose proof (@after A r g B k Gt). right. lia.
Qed.
Lemma insertOwn_ok a A xs ys g B k rk gk l n : aok a (A ++ (xs ++ ys, g) :: B) -> moves a A (xs ++ ys) g B n = false ->
  nth_error (A ++ (xs ++ ys, g) :: B) k = Some (rk, gk) -> l + n <= length rk -> where_insert A g k l n (length xs) ->
  oks (aoa_insertIntoArrayOwn chk tv tw dual kind a (length A) (length xs) k l n) (fun a' =>
    aoa_insertIntoArray chk tv tw dual kind a (length A) (length xs) (sub rk l n) = Ok a' /\
    aok a' (A ++ (xs ++ sub rk l n ++ ys, grown (length (xs ++ ys)) (length (xs ++ ys) + g) n - (length (xs ++ ys) + n)) :: B)).
Proof.
  intros H Mv N Ln Wh. assert (Wa : k <= length A \/ n <= g) by (unfold where_insert in Wh; lia).
  destruct (grown_reads H Mv N Ln Wa) as (a1 & G & D & H1 & R1).
  assert (Ls : length (sub rk l n) = n) by (apply sub_length; exact Ln).
  unfold aoa_insertIntoArrayOwn, aoa_insertIntoArray. rewrite (address_at l (proj1 H)) by (apply nth_error_Some; congruence). cbn [bind].
  rewrite Ls, G, D. cbn [bind].
  assert (Eq : v_insertIntoArrayOwn chk tv a1 (length A) (length xs) (total (firstn k (A ++ (xs ++ ys, g) :: B)) + l) n
    = v_insertIntoArray chk tv a1 (length A) (length xs) (sub rk l n)).
  { unfold v_insertIntoArrayOwn, v_insertIntoArray. rewrite Ls.
    rewrite (row_total (proj1 H1)), (row_size chk (proj1 H1)). cbn [bind]. 
    pose proof (@insertOwn_insert V chk tv (sub rk l n) (vals a1) (total A) (length (xs ++ ys)) (length xs) (total (firstn k (A ++ (xs ++ ys, g) :: B)) + l) R1) as Q.
    rewrite Ls in Q. rewrite Q; auto.
    - rewrite app_length. lia.
    - apply insert_still with (rk := rk) (gk := gk); auto. }
  rewrite Eq. destruct (@v_insert_ok V W chk tv tw fw _ _ _ _ _ _ (sub rk l n) H1) as (a' & E' & H').
  { rewrite Ls. pose proof (grown_ge (length (xs ++ ys)) g n). lia. }
  rewrite E'. apply oks_ok. split; [reflexivity|]. rewrite Nat.sub_add_distr. rewrite Ls in H'. exact H'.
Qed.
Lemma emplaceOwn_ok a A xs ys g B k rk gk l v : aok a (A ++ (xs ++ ys, g) :: B) -> moves a A (xs ++ ys) g B 1 = false ->
  nth_error (A ++ (xs ++ ys, g) :: B) k = Some (rk, gk) -> nth_error rk l = Some v -> where_insert A g k l 1 (length xs) ->
  oks (aoa_emplaceOwn chk tv tw dual kind a (length A) (length xs) k l) (fun a' =>
    aoa_emplace chk tv tw dual kind a (length A) (length xs) v = Ok a' /\
    aok a' (A ++ (xs ++ v :: ys, grown (length (xs ++ ys)) (length (xs ++ ys) + g) 1 - (length (xs ++ ys) + 1)) :: B)).
Proof.
  intros H Mv N Nl Wh. assert (Hl : l < length rk) by (apply nth_error_Some; congruence).
  assert (Wa : k <= length A \/ 1 <= g) by (unfold where_insert in Wh; lia).
  destruct (@grown_reads a A (xs ++ ys) g B k rk gk l 1 1 H Mv N) as (a1 & G & D & H1 & R1); [lia|exact Wa|].
  rewrite (sub1 Nl) in R1. pose proof (R1 0 v eq_refl) as R0. rewrite Nat.add_0_r in R0.
  unfold aoa_emplaceOwn, aoa_emplace. rewrite (slot_at (proj1 H) N Hl). cbn [bind]. rewrite G, D. cbn [bind].
  pose proof (grown_ge (length (xs ++ ys)) g 1) as Gg.
  destruct (grown (length (xs ++ ys)) (length (xs ++ ys) + g) 1 - length (xs ++ ys)) as [|g1] eqn:Eg; [lia|].
  replace (grown (length (xs ++ ys)) (length (xs ++ ys) + g) 1 - (length (xs ++ ys) + 1)) with g1 by lia.
  assert (Eq : v_emplaceOwn chk tv a1 (length A) (length xs) (total (firstn k (A ++ (xs ++ ys, g) :: B)) + l) = v_emplace chk tv a1 (length A) (length xs) v).
  { unfold v_emplaceOwn, v_emplace. rewrite (row_total (proj1 H1)), (row_size chk (proj1 H1)). cbn [bind].
    rewrite (@emplaceOwn_emplace V chk tv v); auto. apply insert_still with (rk := rk) (gk := gk); auto. lia. }
  rewrite Eq. destruct (@v_emplace_ok V W chk tv tw fw _ _ _ _ _ _ v H1) as (a' & E' & H'). rewrite E'. apply oks_ok. split; [reflexivity|exact H'].
Qed.

(** Reallocation of m_values. *)
Definition lost {X} (m : outcome X) : Prop := m = Fault FDangling \/ (tv = false /\ m = Fault FMove).
Lemma appendOwn_lost a A r g B k l n : aok a (A ++ (r, g) :: B) -> moves a A r g B n = true -> k < length (A ++ (r, g) :: B) ->
  lost (aoa_appendToArrayOwn chk tv tw dual kind a (length A) k l n).
Proof.
  intros H Mv Hk. unfold aoa_appendToArrayOwn. rewrite (address_at l (proj1 H)) by exact Hk. cbn [bind].
  destruct (grow_moves chk H Mv) as [E|[T E]]; rewrite E; [left|right]; auto.
Qed.
Lemma insertOwn_lost a A r g B j k l n : aok a (A ++ (r, g) :: B) -> moves a A r g B n = true -> k < length (A ++ (r, g) :: B) ->
  lost (aoa_insertIntoArrayOwn chk tv tw dual kind a (length A) j k l n).
Proof.
  intros H Mv Hk. unfold aoa_insertIntoArrayOwn. rewrite (address_at l (proj1 H)) by exact Hk. cbn [bind].
  destruct (grow_moves chk H Mv) as [E|[T E]]; rewrite E; [left|right]; auto.
Qed.
Lemma emplaceBackOwn_lost a A r g B k rk gk l : aok a (A ++ (r, g) :: B) -> moves a A r g B 1 = true ->
  nth_error (A ++ (r, g) :: B) k = Some (rk, gk) -> l < length rk ->
  lost (aoa_emplaceBackOwn chk tv tw dual kind a (length A) k l).
Proof.
  intros H Mv N Hl. unfold aoa_emplaceBackOwn. rewrite (slot_at (proj1 H) N Hl). cbn [bind].
  destruct (grow_moves chk H Mv) as [E|[T E]]; rewrite E; [left|right]; auto.
Qed.
Lemma emplaceOwn_lost a A r g B j k rk gk l : aok a (A ++ (r, g) :: B) -> moves a A r g B 1 = true ->
  nth_error (A ++ (r, g) :: B) k = Some (rk, gk) -> l < length rk ->
  lost (aoa_emplaceOwn chk tv tw dual kind a (length A) j k l).
Proof.
  intros H Mv N Hl. unfold aoa_emplaceOwn. rewrite (slot_at (proj1 H) N Hl). cbn [bind].
  destruct (grow_moves chk H Mv) as [E|[T E]]; rewrite E; [left|right]; auto.
Qed.

(** appendArray and insertArray: the new row is empty and has no capacity. *)
Lemma push_vals a a1 : push_array chk kind a = Ok a1 -> vals a1 = vals a.
Proof.
  unfold push_array. intros E. destruct (offset a (numArrays a)) as [n| |]; cbn [bind] in E; try discriminate.
  destruct (BufferManip.emplaceBack chk true kind (offs a) (numArrays a + 1) n); cbn [bind] in E; try discriminate.
  destruct (BufferManip.emplaceBack chk true kind (szs a) (numArrays a) 0); cbn [bind] in E; try discriminate.
  injection E as <-. reflexivity.
Qed.
Lemma open_vals a i a1 : open_array chk kind a i = Ok a1 -> vals a1 = vals a.
Proof.
  unfold open_array. intros E. destruct (check_array_insert chk a i); cbn [bind] in E; try discriminate.
  destruct (offset a i) as [n| |]; cbn [bind] in E; try discriminate.
  destruct (BufferManip.emplace chk true kind (offs a) (numArrays a + 1) (Z.of_nat (i + 1)) n); cbn [bind] in E; try discriminate.
  destruct (BufferManip.emplace chk true kind (szs a) (numArrays a) (Z.of_nat i) 0); cbn [bind] in E; try discriminate.
  injection E as <-. reflexivity.
Qed.
Lemma insertArrayOwn_append a A B k a1 l n : aok a (A ++ B) -> k < length A -> open_array chk kind a (length A) = Ok a1 -> aok a1 (A ++ ([], 0) :: B) ->
  insertArrayOwn chk tv tw dual kind a (length A) k l n = aoa_appendToArrayOwn chk tv tw dual kind a1 (length A) k l n.
Proof.
  intros H Hk O H1. unfold insertArrayOwn, aoa_appendToArrayOwn. rewrite (address_at l (proj1 H)), (address_at l (proj1 H1)) by len.
  cbn [bind]. rewrite O. cbn [bind]. rewrite !firstn_app. replace (k - length A) with 0 by lia. reflexivity.
Qed.
Lemma appendArrayOwn_append a L k a1 l n : aok a L -> k < length L -> push_array chk kind a = Ok a1 -> aok a1 (L ++ [([], 0)]) ->
  appendArrayOwn chk tv tw dual kind a k l n = aoa_appendToArrayOwn chk tv tw dual kind a1 (length L) k l n.
Proof.
  intros H Hk O H1. unfold appendArrayOwn, aoa_appendToArrayOwn. rewrite (address_at l (proj1 H)), (address_at l (proj1 H1)) by len.
  cbn [bind]. rewrite O. cbn [bind]. pose proof (proj1 H1) as (N & _). rewrite N.
  replace (length (L ++ [([], 0)]) - 1) with (length L) by len. rewrite !firstn_app. replace (k - length L) with 0 by lia.
  cbn [firstn]. rewrite app_nil_r. reflexivity.
Qed.

(** emplaceBack of an element of a later row when the row is full and m_values keeps its block: the element was shifted. *)
Lemma shifted_reads a A r B k rk gk l : aok a (A ++ (r, 0) :: B) -> moves a A r 0 B 1 = false ->
  nth_error (A ++ (r, 0) :: B) k = Some (rk, gk) -> l < length rk -> length A < k ->
  let q := total (firstn k (A ++ (r, 0) :: B)) + l in
  exists a1, aok a1 (A ++ (r, length r + 2) :: B) /\
    aoa_emplaceBackOwn chk tv tw dual kind a (length A) k l = v_emplaceBackOwn chk tv a1 (length A) q /\
    (forall v, rd (vals a1) q = Ok v -> v_emplaceBackOwn chk tv a1 (length A) q = v_emplaceBack chk tv a1 (length A) v) /\
    (forall f, rd (vals a1) q = Fault f -> v_emplaceBackOwn chk tv a1 (length A) q = Fault f).
Proof.
  intros H Mv N Hl Gt q. destruct (grow_stay chk H Mv) as (a1 & G & D & H1 & _ & _).
  assert (Eg : grown (length r) (length r + 0) 1 - length r = length r + 2).
  { unfold grown. destruct (Nat.ltb_spec (length r + 0) (length r + 1)); lia. }
  rewrite Eg in H1. exists a1. split; [exact H1|]. split; [|split].
  - unfold aoa_emplaceBackOwn. rewrite (slot_at (proj1 H) N Hl). cbn [bind]. rewrite G. reflexivity.
  - intros v R. unfold v_emplaceBackOwn, v_emplaceBack. rewrite (row_total (proj1 H1)), (row_size chk (proj1 H1)).
    unfold emplaceBackOwn, ArrayManip.emplaceBack. rewrite R. reflexivity.
  - intros f R. unfold v_emplaceBackOwn. rewrite (row_check chk (proj1 H1)). cbn [bind].
    rewrite (row_cap chk (proj1 H1)) by lia. cbn [bind].
    rewrite (row_total (proj1 H1)), (row_size chk (proj1 H1)). unfold emplaceBackOwn. cbn [bind]. rewrite R. reflexivity.
Qed.
Lemma total_grown A r g g' B k : length A < k <= length (A ++ (r, g) :: B) ->
  total (firstn k (A ++ (r, g') :: B)) + g = total (firstn k (A ++ (r, g) :: B)) + g'.
Proof.
  intros H. rewrite !firstn_app, !firstn_all2 by lia. destruct (k - length A) as [|m] eqn:Em; [lia|]. cbn [firstn].
  rewrite !total_app. cbn [total]. unfold wid. cbn [fst snd]. lia.
Qed.
Lemma shifted_ok a A r B k rk gk l k' rk' gk' l' v' : aok a (A ++ (r, 0) :: B) -> moves a A r 0 B 1 = false ->
  nth_error (A ++ (r, 0) :: B) k = Some (rk, gk) -> l < length rk -> length A < k ->
  nth_error (A ++ (r, 0) :: B) k' = Some (rk', gk') -> nth_error rk' l' = Some v' -> length A < k' ->
  total (firstn k (A ++ (r, 0) :: B)) + l = total (firstn k' (A ++ (r, 0) :: B)) + (length r + 2) + l' ->
  oks (aoa_emplaceBackOwn chk tv tw dual kind a (length A) k l) (fun a' => aok a' (A ++ (r ++ [v'], length r + 1) :: B)).
Proof.
  intros H Mv N Hl Gt N' Nl' Gt' Eq. destruct (shifted_reads H Mv N Hl Gt) as (a1 & H1 & -> & Hv & _).
  rewrite (Hv v').
  - replace (length r + 2) with (S (length r + 1)) in H1 by lia. exact (@v_emplaceBack_ok V W chk tv tw fw _ _ _ _ _ v' H1).
  - rewrite Eq. assert (Hk : k' < length (A ++ (r, 0) :: B)) by (apply nth_error_Some; congruence).
    pose proof (@total_grown A r 0 (length r + 2) B k' ltac:(lia)) as T. rewrite Nat.add_0_r in T. rewrite <- T.
    assert (N1 : nth_error (A ++ (r, length r + 2) :: B) k' = Some (rk', gk')).
    { rewrite nth_error_app2 in * by lia. destruct (k' - length A) as [|m] eqn:Em; [lia|]. exact N'. }
    exact (row_reads H1 N1 Nl').
Qed.
Lemma shifted_gone a A r B k rk gk l : aok a (A ++ (r, 0) :: B) -> moves a A r 0 B 1 = false -> tv = false ->
  nth_error (A ++ (r, 0) :: B) k = Some (rk, gk) -> l < length rk -> length A < k ->
  (forall k' rk' gk' l', nth_error (A ++ (r, 0) :: B) k' = Some (rk', gk') -> l' < length rk' -> length A < k' ->
    total (firstn k (A ++ (r, 0) :: B)) + l <> total (firstn k' (A ++ (r, 0) :: B)) + (length r + 2) + l') ->
  aoa_emplaceBackOwn chk tv tw dual kind a (length A) k l = Fault FRead.
Proof.
  intros H Mv T N Hl Gt No. destruct (shifted_reads H Mv N Hl Gt) as (a1 & H1 & -> & _ & Hf). apply Hf.
  assert (Hk : k < length (A ++ (r, 0) :: B)) by (apply nth_error_Some; congruence).
  set (q := total (firstn k (A ++ (r, 0) :: B)) + l) in *. pose proof (@after A r 0 B k Gt) as Ge.
  assert (Lq : q < total (A ++ (r, length r + 2) :: B)).
  { pose proof (@total_firstn_le (A ++ (r, 0) :: B) (S k) (length (A ++ (r, 0) :: B)) ltac:(lia)) as Q.
    rewrite (total_firstn_S N), firstn_all in Q. rewrite total_app in *. cbn [total] in *. unfold wid in *. cbn [fst snd] in *. unfold q. lia. }
  destruct (slot_cases Lq) as (k1 & r1 & g1 & x & N1 & E1 & Hx).
  assert (Gx : length r1 <= x).
  { destruct (Nat.lt_ge_cases x (length r1)) as [Lx|]; [exfalso|assumption].
    destruct (Nat.lt_trichotomy k1 (length A)) as [Lt|[->|Gt1]].
    - pose proof (@before A r (length r + 2) B k1 r1 g1 x 1 N1 ltac:(lia) Lt). unfold q in *. lia.
    - rewrite row_nth in N1. injection N1 as <- <-. rewrite firstn_app_exact in E1 by auto. unfold q in *. lia.
    - assert (Hk1 : k1 < length (A ++ (r, length r + 2) :: B)) by (apply nth_error_Some; congruence).
      assert (N0 : nth_error (A ++ (r, 0) :: B) k1 = Some (r1, g1)).
      { rewrite nth_error_app2 in * by lia. destruct (k1 - length A) as [|m] eqn:Em; [lia|]. exact N1. }
      apply (No k1 r1 g1 x N0 Lx Gt1). rewrite app_length in *. cbn [length] in *.
      pose proof (@total_grown A r 0 (length r + 2) B k1) as Tg. rewrite app_length in Tg. cbn [length] in Tg. specialize (Tg ltac:(lia)). lia. }
  rewrite E1. eapply unused_read; [exact H1|exact N1|lia|exact T].
Qed.
End Own.
