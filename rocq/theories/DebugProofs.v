(** A debug build computes the same whenever the build without assertions ends normally, with one exception. *)
From Coq Require Import List Arith ZArith Lia Bool.
From Verif Require Import Base Mem BufferManip Debug AoACapacity AoACapacityProofs.
From Verif Require ArrayManip Array AoA.
Import ListNotations.
Set Implicit Arguments.

Definition imp {A} (m m' : outcome A) : Prop := forall r, m = Ok r -> m' = Ok r.
Lemma imp_refl A (m : outcome A) : imp m m.
Proof. intros r E. exact E. Qed.
Lemma imp_bind A B (m m' : outcome A) (k k' : A -> outcome B) :
  imp m m' -> (forall x, m = Ok x -> imp (k x) (k' x)) -> imp (bind m k) (bind m' k').
Proof. intros H K r E. destruct m as [x| |f]; try discriminate. rewrite (H x eq_refl). exact (K x eq_refl r E). Qed.
Lemma imp_same A B (m : outcome A) (k k' : A -> outcome B) :
  (forall x, m = Ok x -> imp (k x) (k' x)) -> imp (bind m k) (bind m k').
Proof. apply imp_bind, imp_refl. Qed.
Lemma imp_up S n (f f' : nat -> S -> outcome S) : (forall i s, imp (f i s) (f' i s)) -> forall i s, imp (for_up n f i s) (for_up n f' i s).
Proof. intros H. induction n; intros i s; simpl; [ apply imp_refl | ]. apply imp_bind; [ apply H | intros; apply IHn ]. Qed.
Lemma imp_down S n (f f' : nat -> S -> outcome S) : (forall i s, imp (f i s) (f' i s)) -> forall s, imp (for_down n f s) (for_down n f' s).
Proof. intros H. induction n; intros s; simpl; [ apply imp_refl | ]. apply imp_bind; [ apply H | intros; apply IHn ]. Qed.
(** The same when the loop keeps an invariant *)
Lemma imp_up_inv S n (f f' : nat -> S -> outcome S) (P : S -> Prop) : (forall i s, P s -> post (f i s) P) ->
  forall i s, P s -> (forall j s, i <= j < i + n -> P s -> imp (f j s) (f' j s)) -> imp (for_up n f i s) (for_up n f' i s).
Proof.
  intros K. induction n; intros i s Ps H; simpl; [ apply imp_refl | ]. apply imp_bind; [ apply H; [ lia | exact Ps ] | ].
  intros x E. apply IHn; [ exact (K i s Ps x E) | ]. intros j y J. apply H. lia.
Qed.
Lemma imp_down_inv S n (f f' : nat -> S -> outcome S) (P : S -> Prop) : (forall i s, P s -> post (f i s) P) ->
  (forall i s, P s -> imp (f i s) (f' i s)) -> forall s, P s -> imp (for_down n f s) (for_down n f' s).
Proof.
  intros K H. induction n; intros s Ps; simpl; [ apply imp_refl | ]. apply imp_bind; [ apply H; exact Ps | ].
  intros x E. apply IHn. exact (K n s Ps x E).
Qed.
Lemma imp_assert A dbg c (m m' : outcome A) : (forall r, m = Ok r -> c = true) -> imp m m' -> imp m (_ <- assert_ dbg c ;; m').
Proof. intros H K r E. unfold assert_, check_if. rewrite (H r E). rewrite andb_false_r. simpl. exact (K r E). Qed.
Ltac same := apply imp_same; intros ? ?.

(** * What a normal end says about the block *)
Lemma up_first S n (f : nat -> S -> outcome S) i s r : for_up n f i s = Ok r -> 0 < n -> exists s', f i s = Ok s'.
Proof. destruct n; [ lia | ]. simpl. destruct (f i s); try discriminate. eauto. Qed.
Lemma down_first S n (f : nat -> S -> outcome S) s r : for_down n f s = Ok r -> 0 < n -> exists i s', f i s = Ok s'.
Proof. destruct n; [ lia | ]. simpl. destruct (f n s) eqn:E; try discriminate. eauto. Qed.
Lemma aget_pos A (l : list A) i x : aget l i = Ok x -> 0 < length l.
Proof. unfold aget. destruct l; [ rewrite ?nth_error_nil; destruct i; discriminate | simpl; lia ]. Qed.

Section AM.
Variables dbg chk : bool.
Variable kind : bkind.
Variable V : Type.
Variable t : bool.
Implicit Types b : buf V.

Lemma nn b p : 0 < length b -> nonnull kind b p = true.
Proof. intros H. unfold nonnull. destruct kind; auto. replace (length b =? 0) with false by (symmetry; apply Nat.eqb_neq; lia). reflexivity. Qed.
Lemma place_pos b i c r : place t b i c = Ok r -> 0 < length b.
Proof. unfold place. destruct (aget b i) eqn:E; try discriminate. intros _. exact (aget_pos _ _ E). Qed.
Lemma take_pos b i r : take t b i = Ok r -> 0 < length b.
Proof. unfold take. destruct (aget b i) eqn:E; try discriminate. intros _. exact (aget_pos _ _ E). Qed.
Lemma destroy1_pos b i r : destroy1 t b i = Ok r -> 0 < length b.
Proof. unfold destroy1. destruct (aget b i) eqn:E; try discriminate. intros _. exact (aget_pos _ _ E). Qed.
Lemma mconstruct_pos b d s r : mconstruct t b d s = Ok r -> 0 < length b.
Proof. unfold mconstruct. destruct (take t b s) eqn:E; try discriminate. intros _. exact (take_pos _ _ E). Qed.
Lemma destroy_pos b p n r : ArrayManip.destroy t b p n = Ok r -> 0 < n -> 0 < length b.
Proof. intros H L. destruct (up_first _ _ _ H L) as (s & E). exact (destroy1_pos _ _ E). Qed.

Lemma or_true b p (c : bool) : (c = false -> 0 < length b) -> nonnull kind b p || c = true.
Proof. intros H. destruct c; [ apply orb_true_r | ]. rewrite nn; auto. Qed.

Lemma i_destroy b p n : imp (ArrayManip.destroy t b p n) (d_destroy dbg kind t b p n).
Proof.
  apply imp_assert; [ | apply imp_refl ]. intros r E. apply or_true. intros N. apply Nat.eqb_neq in N.
  apply (destroy_pos _ _ E). lia.
Qed.
Lemma i_uninitializedShiftDown b p n k : (k = 0 -> 0 < n -> 0 < length b) ->
  imp (ArrayManip.uninitializedShiftDown t b p n k) (d_uninitializedShiftDown dbg kind t b p n k).
Proof.
  intros Z. apply imp_assert; [ | apply imp_refl ]. intros r E. apply or_true. intros N. apply Nat.eqb_neq in N.
  unfold ArrayManip.uninitializedShiftDown in E. destruct (Nat.eqb_spec k 0) as [K|K]; [ apply Z; lia | ].
  destruct (up_first _ _ _ E ltac:(lia)) as (s & F). destruct (sub_ix (p + 0) k); try discriminate. cbn [bind] in F.
  destruct (mconstruct t b a (p + 0)) eqn:G; try discriminate. exact (@mconstruct_pos _ _ _ _ G).
Qed.
Lemma i_uninitializedShiftUp b p n k : 0 < k ->
  imp (ArrayManip.uninitializedShiftUp t b p n k) (d_uninitializedShiftUp dbg kind t b p n k).
Proof.
  intros Z. apply imp_assert; [ | apply imp_refl ]. intros r E. apply or_true. intros N. apply Nat.eqb_neq in N.
  unfold ArrayManip.uninitializedShiftUp in E. destruct (Nat.eqb_spec k 0) as [K|K]; [ lia | ].
  destruct (down_first _ _ E ltac:(lia)) as (j & s & F).
  destruct (mconstruct t b (p + k + j) (p + j)) eqn:G; try discriminate. exact (@mconstruct_pos _ _ _ _ G).
Qed.
Lemma i_uninitializedMove (d : buf V) pd n (s : buf V) ps :
  imp (ArrayManip.uninitializedMove t d pd n s ps) (d_uninitializedMove dbg kind t d pd n s ps).
Proof.
  assert (H : forall r, ArrayManip.uninitializedMove t d pd n s ps = Ok r -> 0 < n -> 0 < length d /\ 0 < length s).
  { intros r E N. destruct (up_first _ _ _ E N) as (x & F). destruct (take t s (ps + 0)) as [[c s']| |] eqn:T; try discriminate.
    cbn [bind] in F. destruct (place t d (pd + 0) c) eqn:Pl; try discriminate. split; [ exact (@place_pos _ _ _ _ Pl) | exact (@take_pos _ _ _ T) ]. }
  apply imp_assert; [ | apply imp_assert; [ | apply imp_refl ] ]; intros r E; apply or_true; intros N; apply Nat.eqb_neq in N;
    destruct (H r E ltac:(lia)); assumption.
Qed.
Lemma am_resize_pos b p n m v r : ArrayManip.resize t b p n m v = Ok r -> n <> m -> 0 < length b.
Proof.
  unfold ArrayManip.resize. intros E N. destruct (ArrayManip.destroy t b (p + m) (n - m)) as [b1| |] eqn:D; try discriminate.
  destruct (Nat.lt_trichotomy n m) as [L|[L|L]]; [ | lia | apply (@destroy_pos _ _ _ _ D); lia ].
  cbn [bind] in E. destruct (up_first _ _ _ E ltac:(lia)) as (s & F). apply place_pos in F.
  pose proof (@destroy_len V t b (p + m) (n - m) b1 D) as Q. simpl in Q. lia.
Qed.
Lemma i_resize b p n m v : (n = m -> 0 < n -> 0 < length b) -> imp (ArrayManip.resize t b p n m v) (d_resize dbg kind t b p n m v).
Proof.
  intros Z. apply imp_assert; [ | apply imp_assert; [ | apply imp_refl ] ]; intros r E; apply or_true.
  - intros C. destruct (Nat.eq_dec n m) as [->|N]; [ | exact (@am_resize_pos _ _ _ _ _ _ E N) ].
    apply Z; [ reflexivity | ]. destruct (Nat.eqb_spec m 0); [ discriminate | lia ].
  - intros C. apply Nat.eqb_neq in C. exact (@am_resize_pos _ _ _ _ _ _ E C).
Qed.
Definition there b : Prop := kind = BMalloc -> 0 < length b.
Lemma there_nn b p : there b -> nonnull kind b p = true.
Proof. unfold there, nonnull. destruct kind; auto. intros H. specialize (H eq_refl). destruct b; [ simpl in H; lia | reflexivity ]. Qed.
Lemma i_shiftUp b p size index n : there b -> imp (ArrayManip.shiftUp chk t b p size index n) (d_shiftUp dbg chk kind t b p size index n).
Proof.
  intros L. unfold ArrayManip.shiftUp. apply imp_assert; [ intros; rewrite (there_nn _ L); reflexivity | ]. same.
  destruct (n =? 0); [ apply imp_refl | ]. same. apply i_destroy.
Qed.
Lemma i_shiftDown b p size index n : there b -> n <= index ->
  imp (ArrayManip.shiftDown chk t b p size index n) (d_shiftDown dbg chk kind t b p size index n).
Proof.
  intros L I. unfold ArrayManip.shiftDown. same. apply imp_assert; [ intros; rewrite (there_nn _ L); reflexivity | ].
  apply imp_assert; [ intros; apply Nat.leb_le; exact I | ]. apply imp_refl.
Qed.
Lemma i_erase b p size index n : imp (ArrayManip.erase chk t b p size index n) (d_erase dbg chk kind t b p size index n).
Proof.
  unfold ArrayManip.erase, d_erase. destruct (Nat.eqb_spec n 0); [ apply imp_refl | ]. do 2 same.
  intros r E. assert (L : 0 < length b).
  { destruct (ArrayManip.shiftDown chk t b p size (index + n) n) as [b1| |] eqn:S; try discriminate. cbn [bind] in E.
    destruct (sub_ix (p + size) n); try discriminate. cbn [bind] in E. apply destroy_pos in E; [ | lia ].
    pose proof (@shiftDown_len V chk t b p size (index + n) n b1 S) as Q. simpl in Q. lia. }
  revert r E. fold (imp (b1 <- ArrayManip.shiftDown chk t b p size (index + n) n ;; d <- sub_ix (p + size) n ;; ArrayManip.destroy t b1 d n)
                        (b1 <- d_shiftDown dbg chk kind t b p size (index + n) n ;; d <- sub_ix (p + size) n ;; d_destroy dbg kind t b1 d n)).
  apply imp_bind; [ apply i_shiftDown; [ intros _; exact L | lia ] | ]. intros. same. apply i_destroy.
Qed.
Lemma i_emplaceBack b p n v : imp (ArrayManip.emplaceBack t b p n v) (d_emplaceBack dbg kind t b p n v).
Proof. apply imp_assert; [ | apply imp_refl ]. intros r E. apply nn. exact (@place_pos _ _ _ _ E). Qed.
Lemma i_append b p n vs : (vs = [] -> 0 < n -> 0 < length b) -> imp (ArrayManip.append t b p n vs) (d_append dbg kind t b p n vs).
Proof.
  intros Z. apply imp_assert; [ | apply imp_refl ]. intros r E. apply or_true. intros C. destruct vs as [|v vs].
  - apply Z; [ reflexivity | ]. destruct (Nat.eqb_spec n 0); [ discriminate | lia ].
  - unfold ArrayManip.append in E. simpl in E. destruct (construct t b (p + n + 0) v) eqn:F; try discriminate. exact (@place_pos _ _ _ _ F).
Qed.
Lemma emplace_pos b p n i v r : ArrayManip.emplace chk t b p n i v = Ok r -> 0 < length b.
Proof.
  unfold ArrayManip.emplace. destruct (ArrayManip.check_insert_bounds chk n i); try discriminate. cbn [bind].
  destruct (ArrayManip.shiftUp chk t b p n i 1) as [b1| |] eqn:S; try discriminate. cbn [bind]. intros E. apply place_pos in E.
  pose proof (@shiftUp_len V chk t b p n i 1 b1 S) as Q. simpl in Q. lia.
Qed.
Lemma i_emplace b p n i v : imp (ArrayManip.emplace chk t b p n i v) (d_emplace dbg chk kind t b p n i v).
Proof.
  intros r E. pose proof (@emplace_pos _ _ _ _ _ _ E) as L. revert r E.
  fold (imp (ArrayManip.emplace chk t b p n i v) (d_emplace dbg chk kind t b p n i v)). unfold ArrayManip.emplace.
  apply imp_assert; [ intros; apply nn; exact L | ]. same. apply imp_bind; [ apply i_shiftUp; intros _; exact L | intros; apply imp_refl ].
Qed.
Lemma insert_pos_len b p n i vs r : ArrayManip.insert chk t b p n i vs = Ok r -> vs <> [] -> 0 < length b.
Proof.
  unfold ArrayManip.insert. destruct (ArrayManip.check_insert_bounds chk n i); try discriminate. cbn [bind].
  destruct (ArrayManip.shiftUp chk t b p n i (length vs)) as [b1| |] eqn:S; try discriminate. cbn [bind]. intros E N.
  destruct vs as [|v vs]; [ congruence | ]. simpl in E. destruct (construct t b1 (p + i) v) eqn:F; try discriminate. apply place_pos in F.
  pose proof (@shiftUp_len V chk t b p n i _ b1 S) as Q. simpl in Q. lia.
Qed.
Lemma i_insert b p n i vs : (vs = [] -> nonnull kind b p = true) -> imp (ArrayManip.insert chk t b p n i vs) (d_insert dbg chk kind t b p n i vs).
Proof.
  intros Z r E.
  destruct vs as [|v vs].
  - revert r E. fold (imp (ArrayManip.insert chk t b p n i []) (d_insert dbg chk kind t b p n i [])). unfold ArrayManip.insert.
    apply imp_assert; [ auto | ]. same. apply imp_bind; [ | intros; apply imp_refl ].
    unfold ArrayManip.shiftUp, d_shiftUp. apply imp_assert; [ intros; rewrite (Z eq_refl); reflexivity | ]. same. apply imp_refl.
  - pose proof (@insert_pos_len _ _ _ _ _ _ E ltac:(discriminate)) as L. revert r E.
    fold (imp (ArrayManip.insert chk t b p n i (v :: vs)) (d_insert dbg chk kind t b p n i (v :: vs))). unfold ArrayManip.insert.
    apply imp_assert; [ intros; apply nn; exact L | ]. same. apply imp_bind; [ apply i_shiftUp; intros _; exact L | intros; apply imp_refl ].
Qed.
Lemma i_popBack b p n : 0 < n -> imp (ArrayManip.popBack t b p n) (d_popBack dbg kind t b p n).
Proof.
  intros N. unfold ArrayManip.popBack. apply imp_assert; [ | apply imp_assert; [ | apply imp_refl ] ].
  - intros r E. apply nn. destruct (sub_ix (p + n) 1); try discriminate. exact (@destroy1_pos _ _ _ E).
  - intros r E. apply Nat.ltb_lt. exact N.
Qed.

(** * Buffers *)
Lemma i_reallocate b n m : imp (BufferManip.reallocate t kind b n m) (b_reallocate dbg kind t b n m).
Proof.
  unfold BufferManip.reallocate, b_reallocate. destruct kind eqn:K; [ | apply imp_refl ]. rewrite <- K.
  apply imp_bind; [ apply i_uninitializedMove | ]. intros [nb ob] _. apply imp_bind; [ apply i_destroy | intros; apply imp_refl ].
Qed.
Lemma i_setCapacity b n m : imp (BufferManip.setCapacity chk t kind b n m) (b_setCapacity dbg chk kind t b n m).
Proof. unfold BufferManip.setCapacity, b_setCapacity. same. apply i_reallocate. Qed.
Lemma i_reserve b n m : imp (BufferManip.reserve chk t kind b n m) (b_reserve dbg chk kind t b n m).
Proof. unfold BufferManip.reserve, b_reserve. same. destruct (capacity b <? m); [ apply i_setCapacity | apply imp_refl ]. Qed.
Lemma i_dynamicReserve b n m : imp (BufferManip.dynamicReserve chk t kind b n m) (b_dynamicReserve dbg chk kind t b n m).
Proof. unfold BufferManip.dynamicReserve, b_dynamicReserve. same. destruct (capacity b <? m); [ apply i_setCapacity | apply imp_refl ]. Qed.
Lemma i_free b n : imp (BufferManip.free chk t kind b n) (b_free dbg chk kind t b n).
Proof. unfold BufferManip.free, b_free. same. apply imp_bind; [ apply i_destroy | intros; apply imp_refl ]. Qed.
(** A block which had to take m > 0 slots is not null. *)
Lemma nn_reserve b n m b1 p : BufferManip.reserve chk t kind b n m = Ok b1 -> 0 < m -> nonnull kind b1 p = true.
Proof.
  unfold nonnull. destruct kind; auto. intros E L. pose proof (@reserve_len V chk t b n m b1 E) as Q. simpl in Q.
  replace (length b1 =? 0) with false by (symmetry; apply Nat.eqb_neq; lia). reflexivity.
Qed.
Lemma i_bresize b n m v : imp (BufferManip.resize chk t kind b n m v) (b_resize dbg chk kind t b n m v).
Proof.
  unfold BufferManip.resize, b_resize. same. apply imp_bind; [ apply i_reserve | ]. intros b1 E.
  unfold ArrayManip.resize. apply imp_assert; [ | apply imp_assert; [ | apply imp_refl ] ]; intros r F.
  - destruct (Nat.eq_dec m 0) as [->|M]; [ | rewrite (@nn_reserve _ _ _ _ _ E ltac:(lia)); reflexivity ].
    apply or_true. intros C. apply (@am_resize_pos b1 0 n 0 v r F). intros ->. discriminate.
  - apply or_true. intros C. apply Nat.eqb_neq in C. exact (@am_resize_pos b1 0 n m v r F C).
Qed.
Lemma i_bemplaceBack b n v : imp (BufferManip.emplaceBack chk t kind b n v) (b_emplaceBack dbg chk kind t b n v).
Proof. unfold BufferManip.emplaceBack, b_emplaceBack. same. apply imp_bind; [ apply i_dynamicReserve | ]. intros. apply i_emplaceBack. Qed.
Lemma i_bemplace b n p v : imp (BufferManip.emplace chk t kind b n p v) (b_emplace dbg chk kind t b n p v).
Proof. unfold BufferManip.emplace, b_emplace. same. apply imp_bind; [ apply i_dynamicReserve | ]. intros. same. apply i_emplace. Qed.
(** The one exception: nothing inserted into a null block *)
Lemma i_binsert b n p vs : (vs = [] -> nonnull kind b 0 = true) -> imp (BufferManip.insert chk t kind b n p vs) (b_insert dbg chk kind t b n p vs).
Proof.
  intros Z. unfold BufferManip.insert, b_insert. same. apply imp_bind; [ apply i_dynamicReserve | ]. intros b1 E. same.
  apply imp_bind; [ apply i_insert | intros; apply imp_refl ]. intros ->. specialize (Z eq_refl).
  unfold nonnull in *. destruct kind; auto. pose proof (@dynamicReserve_len V chk t b n _ b1 E) as Q. simpl in Q.
  destruct (twice_ge (length b) (n + 0)) as [G _]. rewrite <- Q in G.
  destruct (Nat.eqb_spec (length b) 0); [ discriminate | ]. replace (length b1 =? 0) with false by (symmetry; apply Nat.eqb_neq; lia). reflexivity.
Qed.
Lemma i_bpopBack b n : imp (BufferManip.popBack chk t b n) (b_popBack dbg chk kind t b n).
Proof.
  unfold BufferManip.popBack, b_popBack. same. destruct n; [ intros r E; discriminate | ]. apply i_popBack. lia.
Qed.
Lemma there_reserve b n m b1 : BufferManip.reserve chk t kind b n m = Ok b1 -> 0 < m -> there b1.
Proof. intros E L K. rewrite K in E. pose proof (@reserve_len V chk t b n m b1 E) as Q. simpl in Q. lia. Qed.
Lemma i_berase b n p : imp (BufferManip.erase chk t b n p) (b_erase dbg chk kind t b n p).
Proof. unfold BufferManip.erase, b_erase. do 4 same. apply i_erase. Qed.
End AM.

(** * Array *)
Section Arr.
Variables dbg chk : bool.
Variable kind : bkind.
Variable V : Type.
Variable t : bool.
Variable perm : list nat.
Variable dflt : V.
Implicit Types a : Array.array V.

Lemma i_resizeDefaultDimension a n v :
  imp (Array.resizeDefaultDimension chk t kind perm a n v) (a_resizeDefaultDimension dbg chk kind t perm a n v).
Proof.
  unfold Array.resizeDefaultDimension, a_resizeDefaultDimension. apply imp_same. intros _ _.
  match goal with |- imp (if ?x then _ else _) _ => destruct x end.
  { apply imp_bind; [ apply i_bresize | intros; apply imp_refl ]. }
  match goal with |- imp (if ?x then _ else _) _ => destruct x eqn:E1 end; [ apply imp_refl | ].
  match goal with |- imp (if ?x then _ else _) _ => destruct x eqn:E2 end.
  - apply imp_bind; [ apply i_reserve | ]. intros b1 R.
    remember (Indexing.multiplyAll (upd (Array.a_dims a) (Array.a_rix a) (Z.to_nat n))) as ns eqn:En. clear En.
    destruct (Nat.eq_dec ns 0) as [->|N0].
    { replace ((0 - Array.size a) / (nth (Array.a_rix a) (Array.a_strides a) 0 * (Z.to_nat n - nth (Array.a_rix a) (Array.a_dims a) 0))) with 0
        by (simpl; symmetry; destruct (nth (Array.a_rix a) (Array.a_strides a) 0 * (Z.to_nat n - nth (Array.a_rix a) (Array.a_dims a) 0));
            [ reflexivity | apply Nat.div_0_l; lia ]).
      simpl. apply imp_refl. }
    apply imp_bind; [ | intros; apply imp_refl ].
    apply imp_down_inv with (P := fun b => there kind b).
    + intros i b H b' E K. specialize (H K).
      destruct (ArrayManip.shiftUp chk t b _ _ _ _) as [b2| |] eqn:S in E; try discriminate. cbn [bind] in E.
      pose proof (@shiftUp_len V chk t _ _ _ _ _ b2 S) as Q. simpl in Q.
      pose proof (@up_len V _ _ (fun j b => @construct_len V t b _ v) _ _ b' E) as Q2. simpl in Q2. lia.
    + intros i b H. apply imp_bind; [ apply i_shiftUp; exact H | intros; apply imp_refl ].
    + exact (@there_reserve chk kind V t _ _ _ _ R ltac:(lia)).
  - set (rm := nth (Array.a_rix a) (Array.a_strides a) 0 * (nth (Array.a_rix a) (Array.a_dims a) 0 - Z.to_nat n)).
    set (sh := nth (Array.a_rix a) (Array.a_strides a) 0 * Z.to_nat n).
    set (ns := Indexing.multiplyAll (upd (Array.a_dims a) (Array.a_rix a) (Z.to_nat n))).
    set (it := (Array.size a - ns) / rm). intros r E.
    assert (L : 0 < it - 1 -> 0 < length (Array.a_buf a)).
    { intros I. assert (0 < rm) by (destruct (Nat.eq_dec rm 0) as [Z0|]; [ unfold it in I; rewrite Z0 in I; simpl in I; lia | lia ]).
      destruct (for_up (it - 1) _ 1 (Array.a_buf a)) as [b1| |] eqn:S in E; try discriminate. cbn [bind] in E.
      destruct (for_up (rm * it) _ 0 b1) as [b2| |] eqn:T in E; try discriminate.
      destruct (up_first _ _ _ T ltac:(nia)) as (s & F). apply destroy1_pos in F.
      pose proof (@up_len V _ _ (fun j b => @shiftDown_len V chk t b _ _ _ _) _ _ b1 S) as Q. simpl in Q. lia. }
    revert r E.
    match goal with |- forall r, ?m = Ok r -> ?m' = Ok r => change (imp m m') end.
    apply imp_bind; [ | intros; apply imp_refl ].
    apply imp_up_inv with (P := fun b => length b = length (Array.a_buf a)).
    + intros i b H b' E. pose proof (@shiftDown_len V chk t _ _ _ _ _ b' E) as Q. simpl in Q. lia.
    + reflexivity.
    + intros j b J H. apply i_shiftDown; [ intros _; rewrite H; apply L; lia | lia ].
Qed.
Lemma i_clear a : imp (Array.clear chk t kind perm dflt a) (a_clear dbg chk kind t perm dflt a).
Proof. unfold Array.clear, a_clear. apply imp_bind; [ apply i_bresize | intros; apply imp_refl ]. Qed.
Lemma i_areserve a n : imp (Array.reserve chk t kind a n) (a_reserve dbg chk kind t a n).
Proof. unfold Array.reserve, a_reserve. apply imp_bind; [ apply i_reserve | intros; apply imp_refl ]. Qed.
Lemma i_nstep c a : imp (Array.nstep chk t kind perm dflt c a) (a_nstep dbg chk kind t perm dflt c a).
Proof.
  destruct c; simpl.
  - unfold Array.resize_dims, a_resize_dims. do 2 same. apply imp_bind; [ apply i_bresize | intros; apply imp_refl ].
  - unfold Array.resizeDimension, a_resizeDimension. same. apply imp_bind; [ apply i_bresize | intros; apply imp_refl ].
  - apply i_resizeDefaultDimension.
  - apply i_resizeDefaultDimension.
  - apply i_clear.
  - apply imp_refl.
  - apply i_areserve.
  - apply imp_refl.
Qed.
Lemma i_vstep c a : (forall pos, c = Array.VInsert pos [] -> nonnull kind (Array.a_buf a) 0 = true) ->
  imp (Array.vstep chk t kind perm dflt c a) (a_vstep dbg chk kind t perm dflt c a).
Proof.
  intros Z. destruct c as [v|pos v|pos vs| |pos|n|n v|n| |i v]; simpl.
  - unfold Array.emplace_back, a_emplace_back. apply imp_bind; [ apply i_bemplaceBack | intros; apply imp_refl ].
  - unfold Array.emplace, a_emplace. apply imp_bind; [ apply i_bemplace | intros; apply imp_refl ].
  - unfold Array.insert, a_insert. apply imp_bind; [ apply i_binsert; intros ->; exact (Z _ eq_refl) | intros; apply imp_refl ].
  - unfold Array.pop_back, a_pop_back. apply imp_bind; [ apply i_bpopBack | intros; apply imp_refl ].
  - unfold Array.erase, a_erase. apply imp_bind; [ apply i_berase | intros; apply imp_refl ].
  - apply i_resizeDefaultDimension.
  - apply i_resizeDefaultDimension.
  - apply i_areserve.
  - apply i_clear.
  - apply imp_refl.
Qed.
Lemma i_dtor a : imp (Array.dtor chk t kind a) (a_dtor dbg chk kind t a).
Proof. unfold Array.dtor, a_dtor. apply imp_bind; [ apply i_free | intros; apply imp_refl ]. Qed.
End Arr.
