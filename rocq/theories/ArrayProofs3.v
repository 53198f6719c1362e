(** Histories of calls on a one dimensional Array. *)
From Coq Require Import List Arith ZArith Lia Bool Permutation.
From Verif Require Import Base BaseProofs Mem MemProofs ArrayManipProofs BufferManipProofs.
From Verif Require Import Indexing IndexingSpec IndexingProofs IndexingProofs2 IndexingProofs3 Array ArraySpec.
From Verif Require Import ArrayProofs ArrayProofs2.
From Verif Require ArrayManip BufferManip.
Import ListNotations.
Set Implicit Arguments.
Unset Strict Implicit.

Lemma perm1 : is_permutation [0] (length [0]).
Proof. unfold is_permutation. simpl. auto. Qed.
Lemma nz1 : 0 < length [0].
Proof. simpl. lia. Qed.

Lemma strides1 n : calculateStrides [0] [n] = [1].
Proof. reflexivity. Qed.

Lemma assign_length V triv (b b' : buf V) i v : assign triv b i v = Ok b' -> length b' = length b.
Proof.
  unfold assign, store, aget, aset. destruct (nth_error b i) as [c|]; [|discriminate]. cbn [bind].
  assert (X : forall b', (if i <? length b then Ok (upd b i (Obj v)) else Fault FOob) = Ok b' -> length b' = length b).
  { intros b1. destruct (i <? length b); [|discriminate]. intros E. injection E as <-. apply upd_length. }
  destruct c; [destruct triv; [|discriminate]| |]; apply X.
Qed.

Lemma some_inj A (x y : A) : Some x = Some y -> x = y.
Proof. congruence. Qed.

(** a request for n places can be met *)
Definition n_ok (k : BufferManip.bkind) (n : nat) : Prop :=
  match k with BufferManip.BMalloc => True | BufferManip.BStack m => n <= m end.

Section Vec.
Variable V : Type.
Variable chk triv : bool.
Variable kind : BufferManip.bkind.
Variable dflt : V.
Notation array := (array V).
Notation holds := (@holds V triv).
Notation arr_ok := (@arr_ok V triv [0]).

Lemma arr1 a l : arr_ok a l <->
  a_dims a = [length l] /\ a_strides a = [1] /\ a_rix a = 0 /\ holds (a_buf a) l.
Proof.
  unfold ArrayProofs.arr_ok. split.
  - intros (L & S & R & Lv & H). simpl in L, R.
    destruct (a_dims a) as [|n [|m d]]; simpl in L; try lia.
    rewrite strides1 in S. simpl in Lv. rewrite Nat.mul_1_r in Lv. subst n. repeat split; auto. lia.
  - intros (D & S & R & H). rewrite D, S, R, strides1. simpl. repeat split; auto; lia.
Qed.

Lemma slot1 n i : slotn [0] [n] [Z.of_nat i] = i.
Proof. unfold slotn, gather. simpl. rewrite Nat2Z.id. lia. Qed.

Lemma valid1 n i : valid_index [n] [i] <-> (0 <= i < Z.of_nat n)%Z.
Proof.
  split; intros H; [inversion H; auto|]. constructor; auto.
Qed.

Lemma rdd1 a l n v : arr_ok a l -> can_grow kind (a_buf a) n ->
  oks (resizeDefaultDimension chk triv kind [0] a (Z.of_nat n) v)
      (fun a' => arr_ok a' (with_length l n v) /\ length (a_buf a') = Nat.max (length (a_buf a)) n).
Proof.
  intros A G. pose proof (size_ok A) as SZ. apply arr1 in A. destruct A as (D & S & R & H).
  unfold resizeDefaultDimension. rewrite error_if_ok by (apply Z.ltb_ge; lia). cbn [bind]. rewrite Nat2Z.id.
  cbn [length Nat.eqb orb]. rewrite SZ, D, R. cbn [upd]. rewrite multiplyAll_prod. simpl prod. rewrite Nat.mul_1_r.
  eapply oks_bind; [apply resize_ok; eauto|]. intros b [Hb Lb]. apply oks_ok. cbn. split; auto.
  apply arr1. unfold set_shape. cbn.
  assert (length (with_length l n v) = n) as Ln by (unfold with_length; len).
  rewrite Ln. rewrite R. repeat split; auto.
Qed.

Lemma dim0 a l n b : arr_ok a l -> forall l', n = length l' -> holds b l' -> arr_ok (set_dim0 a n b) l'.
Proof.
  intros A l' -> H. apply arr1 in A. destruct A as (D & S & R & _). apply arr1. unfold set_dim0. cbn.
  rewrite D. cbn. auto.
Qed.

Lemma vstep_ok c a l l' : arr_ok a l -> vector dflt c l = Some l' -> can_grow kind (a_buf a) (need c l) ->
  oks (vstep chk triv kind [0] dflt c a)
      (fun a' => arr_ok a' l' /\ length (a_buf a') = capacity_after c l (length (a_buf a))).
Proof.
  intros A X G. pose proof A as A0. pose proof (size_ok A) as SZ. apply arr1 in A. destruct A as (D & S & R & H).
  destruct c; cbn [vstep vector need capacity_after] in *.
  - injection X as <-. unfold emplace_back. rewrite SZ.
    eapply oks_bind; [apply emplaceBack_ok; eauto|]. intros b [Hb Lb]. apply oks_ok. split; [|exact Lb].
    eapply dim0; eauto. rewrite D. cbn. len.
  - destruct ((0 <=? pos)%Z && (pos <=? Z.of_nat (length l))%Z)%bool eqn:B; [|discriminate].
    injection X as <-. apply andb_true_iff in B. destruct B as [B1 B2].
    unfold emplace. rewrite SZ.
    set (k := Z.to_nat pos) in *. assert (Hk : k <= length l) by lia.
    assert (El : l = firstn k l ++ skipn k l) by (symmetry; apply firstn_skipn).
    assert (Lk : length (firstn k l) = k) by (rewrite firstn_length; lia).
    eapply oks_bind.
    + rewrite El at 1. replace pos with (Z.of_nat (length (firstn k l))) by (rewrite Lk; lia).
      apply emplace_ok; rewrite <- El; auto.
    + cbn beta. rewrite <- El. intros b [Hb Lb]. apply oks_ok. split; [|exact Lb].
      eapply dim0; eauto. rewrite D. cbn. rewrite app_length. cbn [length]. rewrite Lk, skipn_length. lia.
  - destruct ((0 <=? pos)%Z && (pos <=? Z.of_nat (length l))%Z)%bool eqn:B; [|discriminate].
    injection X as <-. apply andb_true_iff in B. destruct B as [B1 B2].
    unfold insert. rewrite SZ.
    set (k := Z.to_nat pos) in *. assert (Hk : k <= length l) by lia.
    assert (El : l = firstn k l ++ skipn k l) by (symmetry; apply firstn_skipn).
    assert (Lk : length (firstn k l) = k) by (rewrite firstn_length; lia).
    eapply oks_bind.
    + rewrite El at 1. replace pos with (Z.of_nat (length (firstn k l))) by (rewrite Lk; lia).
      apply insert_ok; rewrite <- El; auto.
    + cbn beta. rewrite <- El. intros [b n] (Hb & Hn & Lb). cbn [fst snd] in *. apply oks_ok. split; [|exact Lb].
      eapply dim0; eauto. rewrite D. cbn. rewrite !app_length. rewrite Lk, skipn_length. lia.
  - destruct (@exists_last _ l) as (xs & x & ->); [intros ->; discriminate|].
    assert (l' = xs) as ->.
    { destruct (xs ++ [x]) eqn:E; [destruct xs; discriminate|]. rewrite <- E in X. rewrite removelast_last in X. congruence. }
    unfold pop_back. rewrite SZ. eapply oks_bind; [apply popBack_ok; eauto|].
    intros b [Hb Lb]. apply oks_ok. split; [|exact Lb]. eapply dim0; eauto. rewrite D. cbn. len.
  - destruct ((0 <=? pos)%Z && (pos <? Z.of_nat (length l))%Z)%bool eqn:B; [|discriminate].
    apply some_inj in X. subst l'. apply andb_true_iff in B. destruct B as [B1 B2].
    unfold erase. rewrite SZ.
    set (k := Z.to_nat pos) in *. assert (Hk : k < length l) by lia.
    destruct (split_nth l Hk) as (xs & d & ys & -> & Lk).
    replace pos with (Z.of_nat (length xs)) by lia.
    eapply oks_bind; [eapply erase_ok; eauto|].
    intros b [Hb Lb]. apply oks_ok. split; [|exact Lb].
    rewrite <- Lk. rewrite firstn_app_exact by auto.
    assert (Sk : skipn (Datatypes.S (length xs)) (xs ++ d :: ys) = ys).
    { change (d :: ys) with ([d] ++ ys). rewrite app_assoc. apply skipn_app_exact. len. }
    rewrite Sk. eapply dim0; eauto. rewrite D. cbn. len.
  - destruct (Z.leb_spec 0 n); [|discriminate]. injection X as <-.
    replace n with (Z.of_nat (Z.to_nat n)) at 1 by lia. apply rdd1; auto.
  - destruct (Z.leb_spec 0 n); [|discriminate]. injection X as <-.
    replace n with (Z.of_nat (Z.to_nat n)) at 1 by lia. apply rdd1; auto.
  - injection X as <-. unfold reserve. rewrite SZ.
    eapply oks_bind; [apply reserve_ok; eauto|]. intros b [Hb Lb]. apply oks_ok. split; [|exact Lb].
    apply arr1. cbn. rewrite D, S, R. auto.
  - injection X as <-. unfold clear. rewrite SZ.
    eapply oks_bind; [apply resize_ok; eauto|]. intros b [Hb Lb]. apply oks_ok. split.
    + apply arr1. unfold set_shape. cbn. rewrite D, R. cbn. repeat split; auto.
    + cbn. lia.
  - destruct ((0 <=? i)%Z && (i <? Z.of_nat (length l))%Z)%bool eqn:B; [|discriminate].
    injection X as <-. apply andb_true_iff in B. destruct B as [B1 B2].
    assert (VI : valid_index (a_dims a) [i]) by (rewrite D; apply valid1; lia).
    pose proof (@set_valid V chk triv [0] perm1 nz1 a l [i] v A0 VI) as (a' & E & A' & D' & R').
    exists a'. split; auto. split.
    + replace (slotn [0] (a_dims a) [i]) with (Z.to_nat i) in A'.
      * rewrite upd_firstn in A' by lia. exact A'.
      * rewrite D. replace i with (Z.of_nat (Z.to_nat i)) at 2 by lia. rewrite slot1. auto.
    + unfold set_ in E. destruct (slice_call chk (toSlice [0] a) [i]); try discriminate. cbn [bind] in E.
      destruct (to_ix a0); try discriminate. cbn [bind] in E.
      destruct (assign triv (a_buf a) a1 v) as [b| |] eqn:Eb; try discriminate. cbn [bind] in E.
      injection E as <-. cbn. eapply assign_length; eauto.
Qed.

(** A stack buffer that is too small: the call aborts. *)
Lemma vstep_stack c a l l' n : arr_ok a l -> kind = BufferManip.BStack n -> length (a_buf a) = n ->
  vector dflt c l = Some l' -> n < need c l ->
  vstep chk triv kind [0] dflt c a = Abort.
Proof.
  intros A K Lb X G. pose proof A as A0. pose proof (size_ok A) as SZ. apply arr1 in A. destruct A as (D & S & R & H).
  pose proof (holds_cap H) as HC.
  assert (RS : forall m, n < m -> BufferManip.reserve chk triv kind (a_buf a) (length l) m = Abort).
  { intros m Hm. unfold BufferManip.reserve. rewrite check_ok by auto. cbn [bind]. unfold BufferManip.capacity.
    rewrite Lb. destruct (Nat.ltb_spec n m); [|lia]. unfold BufferManip.setCapacity. rewrite check_ok by auto. cbn [bind].
    unfold BufferManip.reallocate. rewrite K. destruct (Nat.ltb_spec n m); [reflexivity|lia]. }
  assert (DS : forall m, n < m -> BufferManip.dynamicReserve chk triv kind (a_buf a) (length l) m = Abort).
  { intros m Hm. unfold BufferManip.dynamicReserve. rewrite check_ok by auto. cbn [bind]. unfold BufferManip.capacity.
    rewrite Lb. destruct (Nat.ltb_spec n m); [|lia]. unfold BufferManip.setCapacity. rewrite check_ok by auto. cbn [bind].
    unfold BufferManip.reallocate. rewrite K. destruct (Nat.ltb_spec n (2 * m)); [reflexivity|lia]. }
  assert (RZ : forall m v, n < m -> BufferManip.resize chk triv kind (a_buf a) (length l) m v = Abort).
  { intros m v Hm. unfold BufferManip.resize. rewrite check_ok by auto. cbn [bind]. rewrite RS; auto. }
  destruct c; cbn [vstep vector need] in *; try lia.
  - unfold emplace_back, BufferManip.emplaceBack. rewrite SZ, check_ok by auto. cbn [bind]. rewrite DS; auto.
  - destruct ((0 <=? pos)%Z && (pos <=? Z.of_nat (length l))%Z)%bool eqn:B; [|discriminate].
    apply andb_true_iff in B. destruct B as [B1 B2].
    unfold emplace, BufferManip.emplace. rewrite SZ, checkInsert_ok by (auto; lia). cbn [bind]. rewrite DS; auto.
  - destruct ((0 <=? pos)%Z && (pos <=? Z.of_nat (length l))%Z)%bool eqn:B; [|discriminate].
    apply andb_true_iff in B. destruct B as [B1 B2].
    unfold insert, BufferManip.insert. rewrite SZ, checkInsert_ok by (auto; lia). cbn [bind]. rewrite DS; auto.
  - destruct (Z.leb_spec 0 n0); [|discriminate]. unfold resizeDefaultDimension.
    rewrite error_if_ok by lia. cbn [bind length Nat.eqb orb]. rewrite SZ, D, R. cbn [upd]. rewrite multiplyAll_prod.
    simpl prod. rewrite Nat.mul_1_r. rewrite RZ; auto.
  - destruct (Z.leb_spec 0 n0); [|discriminate]. unfold resizeDefaultDimension.
    rewrite error_if_ok by lia. cbn [bind length Nat.eqb orb]. rewrite SZ, D, R. cbn [upd]. rewrite multiplyAll_prod.
    simpl prod. rewrite Nat.mul_1_r. rewrite RZ; auto.
  - unfold reserve. rewrite SZ, RS; auto.
Qed.

(** With bounds checks every violated precondition aborts, except pop_back on an empty array. *)
Lemma vstep_abort c a l : chk = true -> arr_ok a l -> vector dflt c l = None -> c <> VPopBack ->
  vstep chk triv kind [0] dflt c a = Abort.
Proof.
  intros K A X NP. pose proof A as A0. pose proof (size_ok A) as SZ. apply arr1 in A. destruct A as (D & S & R & H).
  pose proof (holds_cap H) as HC.
  assert (CI : forall pos, ((0 <=? pos)%Z && (pos <=? Z.of_nat (length l))%Z)%bool = false ->
            BufferManip.checkInsert chk (a_buf a) (length l) pos = Abort).
  { intros pos B. unfold BufferManip.checkInsert. rewrite check_ok by auto. cbn [bind]. rewrite K. unfold check_if.
    destruct (Z.ltb_spec pos 0); [reflexivity|]. cbn.
    destruct (Z.ltb_spec (Z.of_nat (length l)) pos); [reflexivity|].
    destruct (Z.leb_spec 0 pos); [|lia]. destruct (Z.leb_spec pos (Z.of_nat (length l))); [discriminate|lia]. }
  destruct c; cbn [vstep vector] in *; try discriminate; try congruence.
  - unfold emplace, BufferManip.emplace. rewrite SZ, CI; auto. destruct (_ && _)%bool; [discriminate|auto].
  - unfold insert, BufferManip.insert. rewrite SZ, CI; auto. destruct (_ && _)%bool; [discriminate|auto].
  - unfold erase, BufferManip.erase. rewrite SZ, check_ok by auto. cbn [bind].
    destruct (Z.leb_spec (Z.of_nat (length l)) pos); [reflexivity|]. cbn [error_if bind]. rewrite K.
    destruct (Z.ltb_spec pos 0); [reflexivity|].
    destruct (Z.leb_spec 0 pos); [|lia]. destruct (Z.ltb_spec pos (Z.of_nat (length l))); [discriminate|lia].
  - destruct (Z.leb_spec 0 n); [discriminate|]. unfold resizeDefaultDimension.
    destruct (Z.ltb_spec n 0); [reflexivity|lia].
  - destruct (Z.leb_spec 0 n); [discriminate|]. unfold resizeDefaultDimension.
    destruct (Z.ltb_spec n 0); [reflexivity|lia].
  - unfold set_. rewrite K.
    destruct (@slice_call_checked (toSlice [0] a) [i]) as [_ SA]; [cbn; rewrite D; auto|].
    rewrite SA; auto. cbn. rewrite D. intros Vi. apply valid1 in Vi.
    destruct (Z.leb_spec 0 i); [|lia]. destruct (Z.ltb_spec i (Z.of_nat (length l))); [discriminate|lia].
Qed.

(** What the observers of a well formed one dimensional array say. *)
Lemma arr_shows a l : arr_ok a l -> shows chk [0] a l.
Proof.
  intros A. split; [apply (size_ok A)|]. intros i v N.
  assert (i < length l) by (apply nth_error_Some; congruence).
  pose proof A as A1. apply arr1 in A1. destruct A1 as (D & _).
  assert (VI : valid_index (a_dims a) [Z.of_nat i]) by (rewrite D; apply valid1; lia).
  destruct (call_slot chk perm1 nz1 A VI) as [C _]. rewrite D, slot1 in C.
  unfold at_. rewrite C. cbn [bind]. rewrite to_ix_nat. cbn [bind].
  destruct A as (_ & _ & _ & _ & HH). eapply holds_rd; eauto.
Qed.

(** Histories on the heap buffer. *)
Lemma vrun_ok h : forall a l l', kind = BufferManip.BMalloc -> arr_ok a l -> vectors dflt h l = Some l' ->
  oks (run (vstep chk triv kind [0] dflt) h a) (fun a' => arr_ok a' l').
Proof.
  induction h as [|c h IH]; intros a l l' K A X; cbn [run vectors] in *.
  - injection X as <-. apply oks_ok. auto.
  - destruct (vector dflt c l) as [l1|] eqn:E; [|discriminate].
    eapply oks_bind; [eapply vstep_ok; eauto; left; auto|]. intros a1 [A1 _]. eauto.
Qed.

(** ... and on a stack buffer of n places. *)
Lemma vrun_stack n h : forall a l l', kind = BufferManip.BStack n -> arr_ok a l -> length (a_buf a) = n ->
  vectors dflt h l = Some l' ->
  (fits dflt n h l /\ oks (run (vstep chk triv kind [0] dflt) h a) (fun a' => arr_ok a' l' /\ length (a_buf a') = n))
  \/ (~ fits dflt n h l /\ run (vstep chk triv kind [0] dflt) h a = Abort).
Proof.
  induction h as [|c h IH]; intros a l l' K A Lb X; cbn [run vectors fits] in *.
  - left. injection X as <-. split; auto. apply oks_ok. auto.
  - destruct (vector dflt c l) as [l1|] eqn:E; [|discriminate].
    destruct (le_lt_dec (need c l) n) as [Hn|Hn].
    + assert (G : can_grow kind (a_buf a) (need c l)) by (right; lia).
      destruct (vstep_ok A E G) as (a1 & E1 & A1 & L1).
      assert (Lb1 : length (a_buf a1) = n).
      { rewrite L1, Lb. clear -Hn E A Lb. destruct c; cbn [capacity_after need] in *; auto; try lia;
        match goal with |- (if ?x <? ?y then _ else _) = _ => destruct (Nat.ltb_spec x y); lia end. }
      rewrite E1. cbn [bind]. destruct (IH a1 l1 l' K A1 Lb1 X) as [[F O]|[F O]].
      * left. auto.
      * right. split; auto. intros [_ F']. auto.
    + right. split; [intros [F _]; lia|]. erewrite vstep_stack; eauto.
Qed.

(** With bounds checks on, no history ever faults unless it pops from an empty array. *)
Lemma vrun_total h : forall a l, chk = true -> arr_ok a l ->
  (kind = BufferManip.BMalloc \/ exists n, kind = BufferManip.BStack n /\ length (a_buf a) = n) ->
  (exists h1 h2, h = h1 ++ VPopBack :: h2 /\ vectors dflt h1 l = Some []) \/
  run (vstep chk triv kind [0] dflt) h a = Abort \/
  oks (run (vstep chk triv kind [0] dflt) h a) (fun a' => exists l', vectors dflt h l = Some l' /\ arr_ok a' l').
Proof.
  induction h as [|c h IH]; intros a l C A K; cbn [run vectors] in *.
  - right. right. apply oks_ok. eauto.
  - destruct (vector dflt c l) as [l1|] eqn:E.
    + assert (DEC : n_ok kind (need c l) \/ ~ n_ok kind (need c l)) by (unfold n_ok; destruct kind; [left; auto|lia]).
      destruct DEC as [G|G].
      * assert (G' : can_grow kind (a_buf a) (need c l)).
        { destruct K as [K|(n & K & Ln)]; [left; auto|]. right. rewrite K in G. simpl in G. lia. }
        destruct (vstep_ok A E G') as (a1 & E1 & A1 & L1). rewrite E1. cbn [bind].
        destruct (IH a1 l1 C A1) as [(h1 & h2 & -> & X)|[X|X]].
        -- destruct K as [K|(n & K & Ln)]; [left; auto|]. right. exists n. split; auto.
           rewrite L1, Ln. rewrite K in G. simpl in G. destruct c; cbn [capacity_after need] in *; auto; try lia;
           match goal with |- (if ?x <? ?y then _ else _) = _ => destruct (Nat.ltb_spec x y); lia end.
        -- left. exists (c :: h1), h2. split; auto. cbn [vectors]. rewrite E. auto.
        -- right. left. auto.
        -- right. right. auto.
      * right. left. destruct K as [K|(n & K & Ln)]; [rewrite K in G; simpl in G; tauto|].
        erewrite vstep_stack; eauto. rewrite K in G. simpl in G. lia.
    + destruct c; try (right; left; erewrite vstep_abort; eauto; discriminate).
      left. exists [], h. split; auto. cbn in *. destruct l; [auto|discriminate].
Qed.
End Vec.
