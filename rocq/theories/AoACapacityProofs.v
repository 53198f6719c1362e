(** What every method of ArrayOfArrays does to the capacities of m_sizes and m_offsets. *)
From Coq Require Import List Arith ZArith Lia Bool.
From Verif Require Import Base Mem BufferManip AoA Sorted AoS AoACapacity.
From Verif Require ArrayManip.
Import ListNotations.
Set Implicit Arguments.

Definition post {A} (m : outcome A) (Q : A -> Prop) : Prop := forall r, m = Ok r -> Q r.
Lemma post_ok A (x : A) (Q : A -> Prop) : Q x -> post (Ok x) Q.
Proof. intros H r E. inversion E. subst. exact H. Qed.
Lemma post_abort A (Q : A -> Prop) : post Abort Q.
Proof. intros r E. discriminate. Qed.
Lemma post_fault A f (Q : A -> Prop) : post (Fault f) Q.
Proof. intros r E. discriminate. Qed.
Lemma post_bind A B (m : outcome A) (k : A -> outcome B) (P : A -> Prop) (Q : B -> Prop) :
  post m P -> (forall x, P x -> post (k x) Q) -> post (bind m k) Q.
Proof. intros H K r E. destruct m; simpl in E; try discriminate. exact (K a (H a eq_refl) r E). Qed.
(** When nothing is needed of the intermediate result *)
Lemma post_any A B (m : outcome A) (k : A -> outcome B) (Q : B -> Prop) :
  (forall x, post (k x) Q) -> post (bind m k) Q.
Proof. intros K. apply post_bind with (P := fun _ => True); [ intros r _; exact Logic.I | intros; apply K ]. Qed.
Lemma post_up S n (f : nat -> S -> outcome S) (P : S -> Prop) : (forall i s, P s -> post (f i s) P) ->
  forall i s, P s -> post (for_up n f i s) P.
Proof.
  intros H. induction n; intros i s Hs; simpl; [ apply post_ok; exact Hs | ].
  apply post_bind with (P := P); [ apply H; exact Hs | intros; apply IHn; assumption ].
Qed.
Lemma post_down S n (f : nat -> S -> outcome S) (P : S -> Prop) : (forall i s, P s -> post (f i s) P) ->
  forall s, P s -> post (for_down n f s) P.
Proof.
  intros H. induction n; intros s Hs; simpl; [ apply post_ok; exact Hs | ].
  apply post_bind with (P := P); [ apply H; exact Hs | intros; apply IHn; assumption ].
Qed.
Lemma post_mono A (m : outcome A) (P Q : A -> Prop) : post m P -> (forall x, P x -> Q x) -> post m Q.
Proof. intros H I r E. apply I, H, E. Qed.

Ltac step := match goal with |- post (bind _ _) _ => apply post_any; intros ? end.

(** * Buffers *)
Section Lengths.
Variable V : Type.
Variables chk t : bool.
Notation keep b := (fun b' : buf V => length b' = length b).

Lemma upd_len A (l : list A) i x : length (upd l i x) = length l.
Proof. revert i. induction l; intros [|i]; simpl; auto. Qed.
Lemma aset_len A (l : list A) i x : post (aset l i x) (fun l' => length l' = length l).
Proof. unfold aset. destruct (i <? length l); [ apply post_ok, upd_len | apply post_fault ]. Qed.
Lemma place_len b i c : post (place t b i c) (keep b).
Proof.
  unfold place. apply post_any. intros [ |v| ]; try apply aset_len. destruct t; [ apply aset_len | apply post_fault ].
Qed.
Lemma construct_len b i v : post (construct t b i v) (keep b).
Proof. apply place_len. Qed.
Lemma take_len (b : buf V) i : post (take t b i) (fun r => length (snd r) = length b).
Proof.
  unfold take. apply post_any. intros c. destruct t; [ apply post_ok; reflexivity | ].
  destruct c; [ apply post_fault | | apply post_ok; reflexivity ].
  eapply post_bind; [ apply aset_len | ]. intros b' H. apply post_ok. exact H.
Qed.
Lemma store_len b i c : post (store t b i c) (keep b).
Proof. unfold store. apply post_any. intros [ |v| ]; try apply aset_len. destruct t; [ apply aset_len | apply post_fault ]. Qed.
Lemma assign_len b i v : post (assign t b i v) (keep b).
Proof. apply store_len. Qed.
Lemma mconstruct_len b d s : post (mconstruct t b d s) (keep b).
Proof.
  unfold mconstruct. eapply post_bind; [ apply take_len | ]. intros [c b1] H. simpl in H.
  rewrite <- H. apply place_len.
Qed.
Lemma massign_len b d s : post (massign t b d s) (keep b).
Proof.
  unfold massign. eapply post_bind; [ apply take_len | ]. intros [c b1] H. simpl in H. rewrite <- H. apply store_len.
Qed.
Lemma destroy1_len b i : post (destroy1 t b i) (keep b).
Proof.
  unfold destroy1. apply post_any. intros c. destruct t; [ apply post_ok; reflexivity | ].
  destruct c; [ apply post_fault | apply aset_len | apply aset_len ].
Qed.

(** A loop of operations which keep the length keeps the length. *)
Lemma up_len n (f : nat -> buf V -> outcome (buf V)) : (forall i b, post (f i b) (keep b)) ->
  forall i b, post (for_up n f i b) (keep b).
Proof.
  intros H i b. apply post_up; [ | reflexivity ]. intros j s Hs. eapply post_mono; [ apply H | ].
  simpl. intros x Hx. rewrite Hx. exact Hs.
Qed.
Lemma down_len n (f : nat -> buf V -> outcome (buf V)) : (forall i b, post (f i b) (keep b)) ->
  forall b, post (for_down n f b) (keep b).
Proof.
  intros H b. apply post_down; [ | reflexivity ]. intros j s Hs. eapply post_mono; [ apply H | ].
  simpl. intros x Hx. rewrite Hx. exact Hs.
Qed.

Lemma destroy_len b p n : post (ArrayManip.destroy t b p n) (keep b).
Proof. apply up_len. intros. apply destroy1_len. Qed.
Lemma am_resize_len b p n m v : post (ArrayManip.resize t b p n m v) (keep b).
Proof.
  unfold ArrayManip.resize. eapply post_bind; [ apply destroy_len | ]. simpl. intros b1 H. rewrite <- H.
  apply up_len. intros. apply construct_len.
Qed.
Lemma shiftUp_len b p size index n : post (ArrayManip.shiftUp chk t b p size index n) (keep b).
Proof.
  unfold ArrayManip.shiftUp. apply post_any. intros _. destruct (n =? 0); [ apply post_ok; reflexivity | ].
  eapply post_bind; [ apply down_len; intros; apply mconstruct_len | ]. simpl. intros b1 H. rewrite <- H. apply destroy_len.
Qed.
Lemma shiftDown_len b p size index n : post (ArrayManip.shiftDown chk t b p size index n) (keep b).
Proof.
  unfold ArrayManip.shiftDown. apply post_any. intros _. destruct (n =? 0); [ apply post_ok; reflexivity | ].
  apply up_len. intros. apply post_any. intros. apply massign_len.
Qed.
Lemma am_erase_len b p size index n : post (ArrayManip.erase chk t b p size index n) (keep b).
Proof.
  unfold ArrayManip.erase. destruct (n =? 0); [ apply post_ok; reflexivity | ].
  apply post_any. intros _. apply post_any. intros _.
  eapply post_bind; [ apply shiftDown_len | ]. simpl. intros b1 H. rewrite <- H. apply post_any. intros. apply destroy_len.
Qed.
Lemma am_emplace_len b p size index v : post (ArrayManip.emplace chk t b p size index v) (keep b).
Proof.
  unfold ArrayManip.emplace. apply post_any. intros _. eapply post_bind; [ apply shiftUp_len | ]. simpl. intros b1 H.
  rewrite <- H. apply construct_len.
Qed.
Lemma reallocate_len (b : buf V) size n : post (BufferManip.reallocate t BMalloc b size n) (fun b' => length b' = n).
Proof.
  unfold BufferManip.reallocate.
  apply post_bind with (P := fun r : buf V * buf V => length (fst r) = n).
  - unfold ArrayManip.uninitializedMove. apply post_up; [ | apply repeat_length ].
    intros i [d s] H. apply post_any. intros [c s']. simpl in H. eapply post_bind; [ apply place_len | ].
    simpl. intros d' H'. apply post_ok. simpl. congruence.
  - intros [nb ob] H. simpl in H. apply post_any. intros b2. apply post_any. intros _. apply post_ok. exact H.
Qed.
Lemma setCapacity_len (b : buf V) size n : post (BufferManip.setCapacity chk t BMalloc b size n) (fun b' => length b' = n).
Proof. unfold setCapacity. apply post_any. intros _. apply reallocate_len. Qed.
Lemma reserve_len (b : buf V) size n : post (BufferManip.reserve chk t BMalloc b size n) (fun b' => length b' = Nat.max (length b) n).
Proof.
  unfold BufferManip.reserve, BufferManip.capacity. apply post_any. intros _. destruct (Nat.ltb_spec (length b) n).
  - eapply post_mono; [ apply setCapacity_len | ]. simpl. intros b' Hb. rewrite Hb. lia.
  - apply post_ok. lia.
Qed.
Lemma dynamicReserve_len (b : buf V) size n :
  post (BufferManip.dynamicReserve chk t BMalloc b size n) (fun b' => length b' = twice_if_needed (length b) n).
Proof.
  unfold BufferManip.dynamicReserve, BufferManip.capacity, twice_if_needed. apply post_any. intros _.
  destruct (Nat.ltb_spec (length b) n); destruct (Nat.leb_spec n (length b)); try lia.
  - apply setCapacity_len.
  - apply post_ok. reflexivity.
Qed.
Lemma bm_resize_len (b : buf V) size n v : post (BufferManip.resize chk t BMalloc b size n v) (fun b' => length b' = Nat.max (length b) n).
Proof.
  unfold BufferManip.resize. apply post_any. intros _. eapply post_bind; [ apply reserve_len | ]. simpl. intros b1 H.
  rewrite <- H. apply am_resize_len.
Qed.
Lemma bm_emplaceBack_len (b : buf V) size v :
  post (BufferManip.emplaceBack chk t BMalloc b size v) (fun b' => length b' = twice_if_needed (length b) (size + 1)).
Proof.
  unfold BufferManip.emplaceBack. apply post_any. intros _. eapply post_bind; [ apply dynamicReserve_len | ]. simpl.
  intros b1 H. rewrite <- H. apply construct_len.
Qed.
Lemma bm_emplace_len (b : buf V) size p v :
  post (BufferManip.emplace chk t BMalloc b size p v) (fun b' => length b' = twice_if_needed (length b) (size + 1)).
Proof.
  unfold BufferManip.emplace. apply post_any. intros _. eapply post_bind; [ apply dynamicReserve_len | ]. simpl.
  intros b1 H. rewrite <- H. apply post_any. intros q. apply am_emplace_len.
Qed.
Lemma bm_erase_len (b : buf V) size p : post (BufferManip.erase chk t b size p) (keep b).
Proof.
  unfold BufferManip.erase. apply post_any. intros _. apply post_any. intros _. apply post_any. intros _.
  apply post_any. intros q. apply am_erase_len.
Qed.
End Lengths.

(** * ArrayOfArrays *)
Section Methods.
Variables V W : Type.
Variables chk tv tw dual : bool.
Notation aoa := (aoa V W).

Definition has (a : aoa) (r : room) : Prop :=
  numArrays a = arrays r /\ length (szs a) = size_slots r /\ length (offs a) = offset_slots r.
Notation to r := (fun a' : aoa => has a' r).

Lemma each_has (f : forall A, bool -> buf A -> outcome (buf A)) a r : has a r -> post (each tv tw dual f a) (to r).
Proof. intros H. unfold each. apply post_any. intros v. apply post_any. intros e. apply post_ok. exact H. Qed.
Lemma put_size_has a i n r : has a r -> post (put_size a i n) (to r).
Proof.
  intros (A & B & C). unfold put_size. eapply post_bind; [ apply assign_len | ]. simpl. intros s Hs. apply post_ok.
  repeat split; simpl; congruence.
Qed.
Lemma put_offset_has a i n r : has a r -> post (put_offset a i n) (to r).
Proof.
  intros (A & B & C). unfold put_offset. eapply post_bind; [ apply assign_len | ]. simpl. intros s Hs. apply post_ok.
  repeat split; simpl; congruence.
Qed.
Lemma set_vals_has a b r : has a r -> has (set_vals b a) r.
Proof. intros H. exact H. Qed.
Lemma destroyValues_has a i j r : has a r -> post (destroyValues chk tv tw dual a i j) (to r).
Proof. intros H. unfold destroyValues. apply post_any. intros _. apply post_any. intros _. apply each_has, H. Qed.
Lemma aoa_reserve_has a m r : has a r -> post (aoa_reserve chk BMalloc a m) (to (at_least (arrays r) m r)).
Proof.
  intros (A & B & C). unfold aoa_reserve.
  eapply post_bind; [ apply reserve_len | ]. intros o Ho. eapply post_bind; [ apply reserve_len | ]. intros s Hs.
  simpl in Ho, Hs. apply post_ok. repeat split; simpl; congruence.
Qed.
Lemma reserveValues_has a n r : has a r -> post (reserveValues chk tv tw dual BMalloc a n) (to r).
Proof. intros H. unfold reserveValues. apply post_any. intros m. apply each_has, H. Qed.
Lemma compress_has a r : has a r -> post (compress chk tv tw dual a) (to r).
Proof.
  intros H. unfold compress. destruct (numArrays a =? 0); [ apply post_ok; exact H | ].
  apply post_bind with (P := to r).
  - apply post_up; [ | exact H ]. intros i s Hs.
    do 6 step. eapply post_bind; [ apply each_has; exact Hs | ]. intros a1 H1. apply post_any. intros ?.
    apply put_offset_has, H1.
  - intros a1 H1. repeat step. apply put_offset_has, H1.
Qed.
Lemma scan_into_has caps : forall a i acc r, has a r -> post (scan_into a i acc caps) (to r).
Proof.
  induction caps; intros; simpl; [ apply post_ok; assumption | ].
  eapply post_bind; [ apply put_offset_has; eassumption | ]. intros; auto.
Qed.
Lemma resizeFromCapacities_has a caps r : has a r ->
  post (resizeFromCapacities chk tv tw dual BMalloc a caps) (to (at_least (length caps) (length caps) r)).
Proof.
  intros H. unfold resizeFromCapacities. eapply post_bind; [ apply destroyValues_has; exact H | ].
  intros a1 (A & B & C). eapply post_bind; [ apply reserve_len | ]. intros s Hs.
  eapply post_bind; [ apply up_len; intros; apply assign_len | ]. intros s2 Hs2.
  eapply post_bind; [ apply reserve_len | ]. intros o Ho. simpl in Hs, Hs2, Ho.
  eapply post_bind.
  { apply put_offset_has with (r := mkRoom (numArrays a1) (length s2) (length o)). repeat split. }
  intros a2 H2. eapply post_bind; [ apply scan_into_has; exact H2 | ]. intros a3 (A3 & B3 & C3).
  apply post_any. intros m. apply each_has. simpl in *.
  repeat split; simpl; congruence.
Qed.
Lemma resizeImpl_has a n c r : has a r -> post (resizeImpl chk tv tw dual BMalloc a n c) (to (at_least n n r)).
Proof.
  intros H. unfold resizeImpl. destruct (n <? numArrays a).
  - eapply post_bind; [ apply destroyValues_has; exact H | ]. intros a1 (A & B & C).
    eapply post_bind; [ apply bm_resize_len | ]. intros o Ho. eapply post_bind; [ apply bm_resize_len | ]. intros s Hs.
    simpl in Ho, Hs. apply post_ok. repeat split; simpl; congruence.
  - destruct H as (A & B & C). apply post_any. intros oo.
    eapply post_bind; [ apply bm_resize_len | ]. intros o Ho. eapply post_bind; [ apply bm_resize_len | ]. intros s Hs.
    simpl in Ho, Hs.
    apply post_bind with (P := to (mkRoom (numArrays a) (length s) (length o))).
    + destruct (0 <? c); [ | apply post_ok; repeat split ].
      eapply post_bind.
      { apply post_up with (P := to (mkRoom (numArrays a) (length s) (length o))); [ | repeat split ].
        intros. apply put_offset_has. assumption. }
      intros a2 H2. repeat step. apply each_has, H2.
    + intros a2 (A2 & B2 & C2). apply post_ok. simpl in *. repeat split; simpl; congruence.
Qed.
Lemma setCapacityOfArray_has a i c r : has a r -> post (setCapacityOfArray chk tv tw dual BMalloc a i c) (to r).
Proof.
  intros H. unfold setCapacityOfArray. apply post_any. intros _. apply post_any. intros ac.
  destruct (c =? ac); [ apply post_ok; exact H | ]. destruct (ac <? c).
  - apply post_any. intros m. eapply post_bind; [ apply each_has; exact H | ]. intros a1 H1.
    apply post_up; [ | exact H1 ]. intros. apply post_any. intros. apply put_offset_has. assumption.
  - apply post_any. intros o. apply post_any. intros p. eapply post_bind; [ apply put_size_has; exact H | ]. intros a1 H1.
    eapply post_bind; [ apply each_has; exact H1 | ]. intros a2 H2.
    apply post_up; [ | exact H2 ]. intros. repeat step. apply put_offset_has. assumption.
Qed.
Lemma v_emplaceBack_has a i v r : has a r -> post (v_emplaceBack chk tv a i v) (to r).
Proof. intros H. unfold v_emplaceBack. repeat step. apply put_size_has, set_vals_has, H. Qed.
Lemma v_appendToArray_has a i vs r : has a r -> post (v_appendToArray chk tv a i vs) (to r).
Proof. intros H. unfold v_appendToArray. do 3 step. apply post_any. intros [b n]. step. apply put_size_has, set_vals_has, H. Qed.
Lemma v_emplace_has a i j v r : has a r -> post (v_emplace chk tv a i j v) (to r).
Proof. intros H. unfold v_emplace. repeat step. apply put_size_has, set_vals_has, H. Qed.
Lemma v_insertIntoArray_has a i j vs r : has a r -> post (v_insertIntoArray chk tv a i j vs) (to r).
Proof. intros H. unfold v_insertIntoArray. repeat step. apply put_size_has, set_vals_has, H. Qed.
Lemma eraseFromArray_has a i j n r : has a r -> post (eraseFromArray chk tv a i j n) (to r).
Proof. intros H. unfold eraseFromArray. repeat step. apply put_size_has, set_vals_has, H. Qed.
Lemma dynamicallyGrowArray_has a i n r : has a r -> post (dynamicallyGrowArray chk tv tw dual BMalloc a i n) (to r).
Proof.
  intros H. unfold dynamicallyGrowArray. do 2 step.
  match goal with |- post (if ?x then _ else _) _ => destruct x end; [ apply setCapacityOfArray_has, H | apply post_ok, H ].
Qed.
Lemma resizeArray_has a i n v r : has a r -> post (resizeArray chk tv tw dual BMalloc a i n v) (to r).
Proof.
  intros H. unfold resizeArray. do 2 step. apply post_bind with (P := to r).
  - match goal with |- post (if ?x then _ else _) _ => destruct x end; [ apply setCapacityOfArray_has, H | apply post_ok, H ].
  - intros a1 H1. repeat step. apply put_size_has, set_vals_has, H1.
Qed.
Lemma push_array_has a r : has a r -> post (push_array chk BMalloc a) (to (one_more r)).
Proof.
  intros (A & B & C). unfold push_array. step.
  eapply post_bind; [ apply bm_emplaceBack_len | ]. intros o Ho. eapply post_bind; [ apply bm_emplaceBack_len | ]. intros s Hs.
  simpl in Ho, Hs. apply post_ok. repeat split; simpl; rewrite ?Ho, ?Hs, A, ?B, ?C; f_equal; lia.
Qed.
Lemma open_array_has a i r : has a r -> post (open_array chk BMalloc a i) (to (one_more r)).
Proof.
  intros (A & B & C). unfold open_array. do 2 step.
  eapply post_bind; [ apply bm_emplace_len | ]. intros o Ho. eapply post_bind; [ apply bm_emplace_len | ]. intros s Hs.
  simpl in Ho, Hs. apply post_ok. repeat split; simpl; rewrite ?Ho, ?Hs, A, ?B, ?C; f_equal; lia.
Qed.
Lemma aoa_appendToArray_has a i vs r : has a r -> post (aoa_appendToArray chk tv tw dual BMalloc a i vs) (to r).
Proof.
  intros H. unfold aoa_appendToArray. eapply post_bind; [ apply dynamicallyGrowArray_has; exact H | ].
  intros a1 H1. apply v_appendToArray_has, H1.
Qed.
Lemma eraseArray_has a i r : has a r ->
  post (eraseArray chk tv tw dual BMalloc a i) (to (mkRoom (arrays r - 1) (size_slots r) (offset_slots r))).
Proof.
  intros H. unfold eraseArray. step. eapply post_bind; [ apply setCapacityOfArray_has; exact H | ]. intros a1 (A & B & C).
  eapply post_bind; [ apply bm_erase_len | ]. intros o Ho. eapply post_bind; [ apply bm_erase_len | ]. intros s Hs.
  simpl in Ho, Hs. apply post_ok. repeat split; simpl; congruence.
Qed.
Lemma aoa_set_has a i j v r : has a r -> post (aoa_set chk tv a i j v) (to r).
Proof. intros H. unfold aoa_set. step. step. apply post_ok, set_vals_has, H. Qed.

Lemma step_room d c a r : has a r -> post (astep chk tv tw dual BMalloc d c a) (to (room_after c r)).
Proof.
  intros H. destruct c; simpl.
  - apply resizeImpl_has, H.
  - apply resizeFromCapacities_has, H.
  - apply aoa_reserve_has, H.
  - apply reserveValues_has, H.
  - apply compress_has, H.
  - unfold appendArray. eapply post_bind; [ apply push_array_has; exact H | ]. intros a1 H1. apply resizeArray_has, H1.
  - unfold appendArrayFrom. eapply post_bind; [ apply push_array_has; exact H | ]. intros a1 H1. apply aoa_appendToArray_has, H1.
  - unfold insertArray. eapply post_bind; [ apply open_array_has; exact H | ]. intros a1 H1. apply aoa_appendToArray_has, H1.
  - apply eraseArray_has, H.
  - unfold aoa_emplaceBack. eapply post_bind; [ apply dynamicallyGrowArray_has; exact H | ]. intros a1 H1. apply v_emplaceBack_has, H1.
  - apply aoa_appendToArray_has, H.
  - unfold aoa_emplace. eapply post_bind; [ apply dynamicallyGrowArray_has; exact H | ]. intros a1 H1. apply v_emplace_has, H1.
  - unfold aoa_insertIntoArray. eapply post_bind; [ apply dynamicallyGrowArray_has; exact H | ]. intros a1 H1. apply v_insertIntoArray_has, H1.
  - apply eraseFromArray_has, H.
  - apply resizeArray_has, H.
  - apply resizeArray_has, H.
  - apply setCapacityOfArray_has, H.
  - apply aoa_set_has, H.
Qed.
Lemma run_room d h : forall a r, has a r -> post (arun chk tv tw dual BMalloc d h a) (to (rooms h r)).
Proof.
  induction h; intros b r H; simpl; [ apply post_ok; exact H | ].
  eapply post_bind; [ apply step_room; exact H | ]. intros a1 H1. apply IHh, H1.
Qed.
Lemma new_room n c : post (new_aoa V W chk tv tw dual BMalloc n c) (to (mkRoom n n (n + 1))).
Proof.
  unfold new_aoa. eapply post_mono; [ apply resizeImpl_has with (r := mkRoom 0 0 0); repeat split | ].
  intros a (A & B & C). simpl in *. repeat split; simpl; lia.
Qed.
End Methods.

(** * ArrayOfSets *)
Section CB.
Variables V X : Type.
Variables chk t : bool.
Variables lt eqb : V -> V -> bool.
Variable cb : callbacks V X.
Variable P : X -> Prop.
Hypothesis Hinc : forall n b x, P x -> post (cb_inc cb n (b, x)) (fun r => P (snd (fst r))).
Hypothesis Hev : forall e x, P x -> post (cb_ev cb e x) P.

Lemma insert_inv b x p n v : P x -> post (Sorted.insert chk t lt eqb cb b x p n v) (fun r => P (snd (fst r))).
Proof.
  intros H. unfold Sorted.insert. step. apply post_any. intros [|].
  - eapply post_bind; [ apply Hinc; exact H | ]. intros [[b1 x1] q] H1. apply post_ok. exact H1.
  - eapply post_bind; [ apply Hinc; exact H | ]. intros [[b1 x1] q] H1. simpl in H1. step.
    eapply post_bind; [ apply Hev; exact H1 | ]. intros xx H2. apply post_ok. exact H2.
Qed.
Lemma set_loop_inv p vs : forall b x n, P x -> post (set_loop t cb b x p n vs) (fun r => P (snd (fst r))).
Proof.
  induction vs; intros b x n H; simpl; [ apply post_ok; exact H | ]. step.
  eapply post_bind; [ apply Hev; exact H | ]. intros xx H2. apply IHvs, H2.
Qed.
Lemma insert_loop_inv p vs : forall b x ub n, P x -> post (insert_loop chk t lt eqb cb b x p ub n vs) (fun r => P (snd r)).
Proof.
  induction vs; intros b x ub n H; simpl; [ apply post_ok; exact H | ]. step. apply post_any. intros [|].
  - apply IHvs, H.
  - do 3 step. eapply post_bind; [ apply Hev; exact H | ]. intros xx H2. apply IHvs, H2.
Qed.
Lemma inserts_inv b x p n vs : P x -> post (Sorted.inserts chk t lt eqb cb b x p n vs) (fun r => P (snd (fst r))).
Proof.
  intros H. unfold Sorted.inserts. destruct (n =? 0).
  - eapply post_bind; [ apply Hinc; exact H | ]. intros [[b1 x1] q] H1. apply set_loop_inv, H1.
  - apply post_any. intros k. eapply post_bind; [ apply Hinc; exact H | ]. intros [[b1 x1] q] H1. simpl in H1.
    destruct (k =? 0); [ apply post_ok; exact H1 | ].
    eapply post_bind; [ apply insert_loop_inv; exact H1 | ]. intros [b2 x2] H2. apply post_ok. exact H2.
Qed.
Lemma remove_inv b x p n v : P x -> post (Sorted.remove chk t lt eqb cb b x p n v) (fun r => P (snd (fst r))).
Proof.
  intros H. unfold Sorted.remove. apply post_any. intros k. destruct (k =? n); [ apply post_ok; exact H | ].
  apply post_any. intros y. destruct (negb _); [ apply post_ok; exact H | ]. step.
  eapply post_bind; [ apply Hev; exact H | ]. intros xx H2. apply post_ok. exact H2.
Qed.
Lemma remove_loop_inv p n fuel : forall vs b x k pos, P x ->
  post (remove_loop chk t lt eqb cb fuel b x p n k pos vs) (fun r => P (snd (fst r))).
Proof.
  induction fuel; intros [|v vs] b x k pos H; simpl; try (apply post_ok; exact H); try apply post_fault.
  apply post_any. intros [np next]. step. eapply post_bind; [ apply Hev; exact H | ]. intros xx H2.
  match goal with |- post (if ?c then _ else _) _ => destruct c end; [ apply post_ok; exact H2 | apply IHfuel, H2 ].
Qed.
Lemma removes_inv b x p n vs : P x -> post (Sorted.removes chk t lt eqb cb b x p n vs) (fun r => P (snd (fst r))).
Proof.
  intros H. unfold Sorted.removes. apply post_any. intros [pos [|f found]]; [ apply post_ok; exact H | ].
  eapply post_bind; [ apply remove_loop_inv; exact H | ]. intros [[b1 x1] k] H1. step. apply post_ok. exact H1.
Qed.
End CB.

Section Sets.
Variables V W : Type.
Variables chk tv tw dual : bool.
Variables lt eqb : V -> V -> bool.
Notation aoa := (aoa V W).
Notation to1 r := (fun x : aoa * _ => has (fst x) r).

Section Impl.
Variable cb : callbacks V (aoa * nat).
Variable r : room.
Hypothesis Hinc : forall n b x, has (fst x) r -> post (cb_inc cb n (b, x)) (fun y => has (fst (snd (fst y))) r).
Hypothesis Hev : forall e x, has (fst x) r -> post (cb_ev cb e x) (to1 r).
Lemma insertImpl_has a e i v : has a r -> post (insertIntoSetImpl chk tv lt eqb cb a e i v) (to1 r).
Proof.
  intros H. unfold insertIntoSetImpl. do 3 step.
  eapply post_bind; [ apply (insert_inv (P := to1 r) chk tv lt eqb cb Hinc Hev); exact H | ].
  intros [[b xx] s] H1. simpl in H1. step. eapply post_bind; [ apply put_size_has with (r := r); exact H1 | ].
  intros a2 H2. apply post_ok. exact H2.
Qed.
Lemma insertsImpl_has a e i vs : has a r -> post (insertsIntoSetImpl chk tv lt eqb cb a e i vs) (to1 r).
Proof.
  intros H. unfold insertsIntoSetImpl. do 3 step.
  eapply post_bind; [ apply (inserts_inv (P := to1 r) chk tv lt eqb cb Hinc Hev); exact H | ].
  intros [[b xx] s] H1. simpl in H1. step. eapply post_bind; [ apply put_size_has with (r := r); exact H1 | ].
  intros a2 H2. apply post_ok. exact H2.
Qed.
Lemma removeImpl_has a e i v : has a r -> post (removeFromSetImpl chk tv lt eqb cb a e i v) (to1 r).
Proof.
  intros H. unfold removeFromSetImpl. do 3 step.
  eapply post_bind; [ apply (remove_inv (P := to1 r) chk tv lt eqb cb Hev); exact H | ].
  intros [[b xx] s] H1. simpl in H1. step. step. eapply post_bind; [ apply put_size_has with (r := r); exact H1 | ].
  intros a2 H2. apply post_ok. exact H2.
Qed.
Lemma removesImpl_has a e i vs : has a r -> post (removesFromSetImpl chk tv lt eqb cb a e i vs) (to1 r).
Proof.
  intros H. unfold removesFromSetImpl. do 3 step.
  eapply post_bind; [ apply (removes_inv (P := to1 r) chk tv lt eqb cb Hev); exact H | ].
  intros [[b xx] s] H1. simpl in H1. step. step. eapply post_bind; [ apply put_size_has with (r := r); exact H1 | ].
  intros a2 H2. apply post_ok. exact H2.
Qed.
End Impl.

Lemma grow_inc f i r n b x : has (fst x) r ->
  post (cb_inc (@grow_cb V W chk tv tw dual BMalloc f i) n (b, x)) (fun y => has (fst (snd (fst y))) r).
Proof.
  destruct x as [a e]. intros H. simpl. step. step.
  apply post_bind with (P := fun a' => has a' r).
  - match goal with |- post (if ?c then _ else _) _ => destruct c end;
      [ apply setCapacityOfArray_has; exact H | apply post_ok; exact H ].
  - intros a' H'. step. apply post_ok. exact H'.
Qed.
Lemma grow_ev f i r e x : has (fst x) r -> post (cb_ev (@grow_cb V W chk tv tw dual BMalloc f i) e x) (to1 r).
Proof. intros H. apply post_ok. exact H. Qed.
Lemma view_ev i r e x : has (fst x) r -> post (cb_ev (@view_cb V W chk i) e x) (to1 r).
Proof. intros H. apply post_ok. exact H. Qed.

Lemma void_has m r : post m (fun a => has a r) -> post (@void V W m) (to1 r).
Proof. intros H. unfold void. eapply post_bind; [ exact H | ]. intros a Ha. apply post_ok. exact Ha. Qed.
Lemma tstep_room d c a r : has a r -> post (tstep chk tv tw dual BMalloc lt eqb d c a) (to1 (room_after_set c r)).
Proof.
  intros H. destruct c; simpl; try apply void_has.
  - apply resizeImpl_has, H.
  - apply resizeFromCapacities_has, H.
  - apply aoa_reserve_has, H.
  - apply reserveValues_has, H.
  - apply compress_has, H.
  - unfold appendSet. eapply post_bind; [ apply push_array_has; exact H | ]. intros a1 H1. apply setCapacityOfArray_has, H1.
  - unfold insertSet. eapply post_bind; [ apply open_array_has; exact H | ]. intros a1 H1. apply setCapacityOfArray_has, H1.
  - apply eraseArray_has, H.
  - eapply post_bind; [ apply insertImpl_has with (r := r); [ intros; apply grow_inc; assumption | intros; apply grow_ev; assumption | exact H ] | ].
    intros [a1 f] H1. apply post_ok. exact H1.
  - apply insertsImpl_has; [ intros; apply grow_inc; assumption | intros; apply grow_ev; assumption | exact H ].
  - eapply post_bind; [ apply removeImpl_has with (r := r); [ intros; apply view_ev; assumption | exact H ] | ].
    intros [a1 f] H1. apply post_ok. exact H1.
  - apply removesImpl_has; [ intros; apply view_ev; assumption | exact H ].
  - unfold clearSet. repeat step. apply put_size_has, set_vals_has, H.
  - apply setCapacityOfArray_has, H.
  - unfold reserveCapacityOfSet. step. step.
    match goal with |- post (if ?x then _ else _) _ => destruct x end; [ apply setCapacityOfArray_has; exact H | apply post_ok; exact H ].
Qed.
Lemma trun_room d h : forall (a : aoa) r, has a r -> post (trun chk tv tw dual BMalloc lt eqb d h a) (fun x : aoa => has x (rooms_sets h r)).
Proof.
  induction h; intros b r H; simpl; [ apply post_ok; exact H | ].
  eapply post_bind; [ apply tstep_room; exact H | ]. intros [a1 k] H1. apply IHh, H1.
Qed.
End Sets.

(** * Numbers *)
Lemma rooms_app V (h1 h2 : list (acall V)) r : rooms (h1 ++ h2) r = rooms h2 (rooms h1 r).
Proof. revert r. induction h1; intros r; simpl; auto. Qed.
Lemma twice_ge h n : h <= twice_if_needed h n /\ n <= twice_if_needed h n.
Proof. unfold twice_if_needed. destruct (Nat.leb_spec n h); lia. Qed.
Lemma more_arrays k r : arrays (more k r) = arrays r + k.
Proof. induction k; simpl; [ lia | ]. rewrite IHk. lia. Qed.
Lemma more_mono k r : size_slots r <= size_slots (more k r) /\ offset_slots r <= offset_slots (more k r).
Proof.
  induction k; simpl; [ lia | ].
  destruct (twice_ge (size_slots (more k r)) (arrays (more k r) + 1)), (twice_ge (offset_slots (more k r)) (arrays (more k r) + 2)). lia.
Qed.
Lemma more_fits k r : arrays r + k <= size_slots r -> arrays r + k + 1 <= offset_slots r -> same_blocks r (more k r).
Proof.
  unfold same_blocks. induction k; intros A B; simpl; [ auto | ]. destruct IHk as (S & O); try lia.
  rewrite more_arrays, S, O. unfold twice_if_needed.
  destruct (Nat.leb_spec (arrays r + k + 1) (size_slots r)), (Nat.leb_spec (arrays r + k + 2) (offset_slots r)); lia.
Qed.
Lemma more_needs k r : k <> 0 -> same_blocks r (more k r) -> arrays r + k <= size_slots r /\ arrays r + k + 1 <= offset_slots r.
Proof.
  unfold same_blocks. destruct k; [ congruence | ]. intros _ (A & B). simpl in A, B. rewrite more_arrays in A, B.
  destruct (twice_ge (size_slots (more k r)) (arrays r + k + 1)), (twice_ge (offset_slots (more k r)) (arrays r + k + 2)). lia.
Qed.
Lemma documented_min r : documented_capacity r (Nat.min (size_slots r) (offset_slots r - 1)).
Proof.
  intros k K. split.
  - intros S. apply more_needs in S; [ lia | exact K ].
  - intros L. apply more_fits; lia.
Qed.
Lemma documented_unique r c : arrays r < c \/ arrays r < Nat.min (size_slots r) (offset_slots r - 1) ->
  documented_capacity r c -> c = Nat.min (size_slots r) (offset_slots r - 1).
Proof.
  intros H D. pose proof (documented_min r) as D'. set (m := Nat.min _ _) in *.
  destruct (Nat.lt_trichotomy c m) as [L|[E|L]]; [ | exact E | ]; exfalso.
  - assert (K : m - arrays r <> 0) by lia. pose proof (D _ K). pose proof (D' _ K).
    assert (arrays r + (m - arrays r) <= m) by lia. assert (arrays r + (m - arrays r) <= c) by tauto. lia.
  - assert (K : c - arrays r <> 0) by lia. pose proof (D _ K). pose proof (D' _ K).
    assert (arrays r + (c - arrays r) <= c) by lia. assert (arrays r + (c - arrays r) <= m) by tauto. lia.
Qed.
Lemma no_single_slots V (h : list (acall V)) : forallb no_single h = true ->
  forall r, offset_slots r = size_slots r + 1 -> offset_slots (rooms h r) = size_slots (rooms h r) + 1.
Proof.
  induction h as [|c h IH]; intros H r E; simpl in *; [ exact E | ]. apply andb_prop in H. destruct H as (A & B).
  apply IH; [ exact B | ]. destruct c; simpl in *; try discriminate; lia.
Qed.
Lemma at_most_slots V m (h : list (acall V)) : forall r, at_most m h r = true -> m <= size_slots r -> m + 1 <= offset_slots r ->
  same_blocks r (rooms h r).
Proof.
  unfold same_blocks. induction h as [|c h IH]; intros r H A B; simpl in *; [ auto | ].
  apply andb_prop in H. destruct H as (H0 & H). apply andb_prop in H. destruct H as (H1 & H2).
  assert (H3 : arrays (room_after c r) <= m).
  { destruct h; simpl in H2; apply andb_prop in H2; apply Nat.leb_le; tauto. }
  assert (S : size_slots (room_after c r) = size_slots r /\ offset_slots (room_after c r) = offset_slots r).
  { destruct c; simpl in *; try (split; reflexivity); try lia;
      try (apply Nat.leb_le in H1; lia);
      unfold twice_if_needed; destruct (Nat.leb_spec (arrays r + 1) (size_slots r)), (Nat.leb_spec (arrays r + 2) (offset_slots r)); lia. }
  destruct S as (S1 & S2). destruct (IH _ H2) as (I1 & I2); lia.
Qed.
Lemma more_split j k r : more (j + k) r = more j (more k r).
Proof. induction j; simpl; [ reflexivity | ]. rewrite IHj. reflexivity. Qed.
Lemma twice_grows h n : h < n -> twice_if_needed h n = 2 * n.
Proof. unfold twice_if_needed. intros. destruct (Nat.leb_spec n h); lia. Qed.
Lemma twice_keeps h n : n <= h -> twice_if_needed h n = h.
Proof. unfold twice_if_needed. intros. destruct (Nat.leb_spec n h); lia. Qed.
Lemma from_new n0 : more (n0 + 3) (mkRoom n0 n0 (n0 + 1)) = mkRoom (2 * n0 + 3) (4 * n0 + 6) (2 * n0 + 4).
Proof.
  replace (n0 + 3) with (1 + ((n0 + 1) + 1)) by lia. rewrite more_split, (more_split (n0 + 1) 1).
  set (r1 := more 1 (mkRoom n0 n0 (n0 + 1))).
  assert (R1 : r1 = mkRoom (n0 + 1) (2 * n0 + 2) (2 * n0 + 4)).
  { unfold r1, more, one_more. cbn [arrays size_slots offset_slots]. rewrite !twice_grows by lia. f_equal; lia. }
  rewrite R1. clear R1 r1.
  set (r := mkRoom (n0 + 1) (2 * n0 + 2) (2 * n0 + 4)).
  destruct (@more_fits (n0 + 1) r) as (A & B); try (unfold r; simpl; lia).
  pose proof (more_arrays (n0 + 1) r) as C. destruct (more (n0 + 1) r) as [x y z]. simpl in *. subst x y z.
  unfold one_more. simpl arrays. simpl size_slots. simpl offset_slots.
  rewrite twice_grows by lia. rewrite twice_keeps by lia. f_equal; lia.
Qed.
Lemma rooms_appends V k r : rooms (repeat (@AAppend V 0) k) r = more k r.
Proof.
  assert (G : forall j, rooms (repeat (@AAppend V 0) k) (more j r) = more (k + j) r).
  { induction k; intros j; simpl; [ reflexivity | ]. change (one_more (more j r)) with (more (S j) r). rewrite IHk.
    replace (k + S j) with (S (k + j)) by lia. reflexivity. }
  specialize (G 0). rewrite Nat.add_0_r in G. exact G.
Qed.
Lemma rooms_sets_appends V k r : rooms_sets (repeat (@TAppendSet V 0) k) r = more k r.
Proof.
  assert (G : forall j, rooms_sets (repeat (@TAppendSet V 0) k) (more j r) = more (k + j) r).
  { induction k; intros j; simpl; [ reflexivity | ]. change (one_more (more j r)) with (more (S j) r). rewrite IHk.
    replace (k + S j) with (S (k + j)) by lia. reflexivity. }
  specialize (G 0). rewrite Nat.add_0_r in G. exact G.
Qed.
