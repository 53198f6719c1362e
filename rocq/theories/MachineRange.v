(** Whatever the machine versions of ArrayOfArrays, ArrayOfSets, SparsityPattern and CRSMatrix store in
    numArrays, the offsets and the sizes can be represented: no result of the arithmetic escapes the checks
    of MachineAoA.v and MachineSets.v. *)
From Coq Require Import List Arith ZArith Lia Bool.
From Verif Require Import Base Mem BufferManip AoA Sorted AoS Sparsity CRS MachineAoA MachineSets MachineAoAProofs MachineSetsProofs2.
From Verif Require ArrayManip.
Import ListNotations.
Set Implicit Arguments.
Unset Strict Implicit.

Lemma then_mono {A} (m : outcome A) (Q R : A -> Prop) : then_ m Q -> (forall x, Q x -> R x) -> then_ m R.
Proof. intros H I x E. apply I, H, E. Qed.
Lemma then_up {S} (I : S -> Prop) g n : (forall i s, I s -> then_ (g i s) I) -> forall i s, I s -> then_ (for_up n g i s) I.
Proof.
  intros H. induction n as [|n IH]; intros i s Hs; cbn [for_up]; [apply then_ok; auto|].
  eapply then_bind; [apply H; exact Hs|]. intros x Hx. apply IH. exact Hx.
Qed.
Lemma then_down {S} (I : S -> Prop) g n : (forall i s, I s -> then_ (g i s) I) -> forall s, I s -> then_ (for_down n g s) I.
Proof.
  intros H. induction n as [|n IH]; intros s Hs; cbn [for_down]; [apply then_ok; auto|].
  eapply then_bind; [apply H; exact Hs|]. intros x Hx. apply IH. exact Hx.
Qed.

Section Cells.
Variable hi : nat.
Definition cellb (c : cell nat) : Prop := match c with Obj v => v <= hi | _ => True end.
Definition allb (b : buf nat) : Prop := Forall cellb b.
Implicit Types b d s : buf nat.

Lemma b_aget b i : allb b -> then_ (aget b i) cellb.
Proof.
  intros H c. unfold aget. destruct (nth_error b i) eqn:E; [|discriminate]. intros G. injection G as <-.
  exact (proj1 (Forall_forall cellb b) H c0 (nth_error_In _ _ E)).
Qed.
Lemma b_upd b i c : allb b -> cellb c -> allb (upd b i c).
Proof.
  intros H Hc. revert i. induction H as [|x b Hx H IH]; intros i; simpl; [constructor|]. destruct i; constructor; auto. apply IH.
Qed.
Lemma b_aset b i c : allb b -> cellb c -> then_ (aset b i c) allb.
Proof. intros H Hc b'. unfold aset. destruct (i <? length b); [|discriminate]. intros E. injection E as <-. apply b_upd; auto. Qed.
Lemma b_rd b i : allb b -> then_ (rd b i) (fun v => v <= hi).
Proof.
  intros H. unfold rd. eapply then_bind; [apply b_aget; exact H|]. intros c Hc. destruct c; try (intros ? E; discriminate). apply then_ok. exact Hc.
Qed.
Lemma bad_then {A} f (R : A -> Prop) : then_ (Fault f) R. Proof. intros x E. discriminate. Qed.
Lemma b_place t b i c : allb b -> cellb c -> then_ (place t b i c) allb.
Proof.
  intros H Hc. unfold place. apply then_any. intros o. destruct o; try (apply b_aset; auto). destruct t; [apply b_aset; auto|apply bad_then].
Qed.
Lemma b_store t b i c : allb b -> cellb c -> then_ (store t b i c) allb.
Proof.
  intros H Hc. unfold store. apply then_any. intros o. destruct o; try (apply b_aset; auto). destruct t; [apply b_aset; auto|apply bad_then].
Qed.
Lemma b_take t b i : allb b -> then_ (take t b i) (fun r => cellb (fst r) /\ allb (snd r)).
Proof.
  intros H. unfold take. eapply then_bind; [apply b_aget; exact H|]. intros c Hc. destruct t; [apply then_ok; auto|].
  destruct c; [apply bad_then| |apply then_ok; auto]. eapply then_bind; [apply b_aset; [exact H|exact I]|]. intros b' Hb. apply then_ok. auto.
Qed.
Lemma b_destroy1 t b i : allb b -> then_ (destroy1 t b i) allb.
Proof.
  intros H. unfold destroy1. apply then_any. intros c. destruct t; [apply then_ok; auto|]. destruct c; [apply bad_then| |]; apply b_aset; simpl; auto.
Qed.
Lemma b_destroy t b p n : allb b -> then_ (ArrayManip.destroy t b p n) allb.
Proof. intros H. unfold ArrayManip.destroy. apply then_up; auto. intros. apply b_destroy1. auto. Qed.
Lemma b_mconstruct t b i j : allb b -> then_ (mconstruct t b i j) allb.
Proof. intros H. unfold mconstruct. eapply then_bind; [apply b_take; exact H|]. intros [c b1] [H1 H2]. apply b_place; auto. Qed.
Lemma b_massign t b i j : allb b -> then_ (massign t b i j) allb.
Proof. intros H. unfold massign. eapply then_bind; [apply b_take; exact H|]. intros [c b1] [H1 H2]. apply b_store; auto. Qed.
Lemma b_umove t d pd n s ps : allb d -> allb s -> then_ (ArrayManip.uninitializedMove t d pd n s ps) (fun r => allb (fst r) /\ allb (snd r)).
Proof.
  intros Hd Hs. unfold ArrayManip.uninitializedMove. apply (then_up (I := fun r => allb (fst r) /\ allb (snd r))); [|auto].
  intros i [d' s'] [H1 H2]. eapply then_bind; [apply b_take; exact H2|]. intros [c s2] [H3 H4].
  eapply then_bind; [apply b_place; [exact H1|exact H3]|]. intros d2 H5. apply then_ok. auto.
Qed.
Lemma b_raw n : allb (repeat Raw n).
Proof. apply Forall_forall. intros x Hx. apply repeat_spec in Hx. subst. exact I. Qed.
Lemma b_setCapacity chk t k b n m : allb b -> then_ (BufferManip.setCapacity chk t k b n m) allb.
Proof.
  intros H. unfold BufferManip.setCapacity, BufferManip.reallocate. apply then_any. intros _. destruct k; [|apply then_any; intros _; apply then_ok; auto].
  eapply then_bind; [apply b_umove; [apply b_raw|exact H]|]. intros [b1 b2] [H1 _]. apply then_any. intros ?. apply then_any. intros _. apply then_ok. exact H1.
Qed.
Lemma b_reserve chk t k b n m : allb b -> then_ (BufferManip.reserve chk t k b n m) allb.
Proof.
  intros H. unfold BufferManip.reserve. apply then_any. intros _. destruct (_ <? _); [apply b_setCapacity; auto|apply then_ok; auto].
Qed.
Lemma b_dreserve chk t k b n m : allb b -> then_ (BufferManip.dynamicReserve chk t k b n m) allb.
Proof.
  intros H. unfold BufferManip.dynamicReserve. apply then_any. intros _. destruct (_ <? _); [apply b_setCapacity; auto|apply then_ok; auto].
Qed.
Lemma b_resize chk t k b n m v : allb b -> v <= hi -> then_ (BufferManip.resize chk t k b n m v) allb.
Proof.
  intros H Hv. unfold BufferManip.resize, ArrayManip.resize. apply then_any. intros _. eapply then_bind; [apply b_reserve; exact H|]. intros b1 H1.
  eapply then_bind; [apply b_destroy; exact H1|]. intros b2 H2. apply then_up; auto. intros i b3 H3. apply b_place; auto.
Qed.
Lemma b_emplaceBack chk t k b n v : allb b -> v <= hi -> then_ (BufferManip.emplaceBack chk t k b n v) allb.
Proof.
  intros H Hv. unfold BufferManip.emplaceBack, ArrayManip.emplaceBack. apply then_any. intros _. eapply then_bind; [apply b_dreserve; exact H|]. intros b1 H1.
  apply b_place; auto.
Qed.
Lemma b_shiftUp chk t b p n i m : allb b -> then_ (ArrayManip.shiftUp chk t b p n i m) allb.
Proof.
  intros H. unfold ArrayManip.shiftUp. apply then_any. intros _. destruct (m =? 0); [apply then_ok; auto|].
  eapply then_bind; [apply then_down; [|exact H]; intros; apply b_mconstruct; auto|]. intros b1 H1. apply b_destroy. auto.
Qed.
Lemma b_shiftDown chk t b p n i m : allb b -> then_ (ArrayManip.shiftDown chk t b p n i m) allb.
Proof.
  intros H. unfold ArrayManip.shiftDown. apply then_any. intros _. destruct (m =? 0); [apply then_ok; auto|].
  apply then_up; auto. intros j b1 H1. apply then_any. intros d. apply b_massign. auto.
Qed.
Lemma b_emplace chk t k b n p v : allb b -> v <= hi -> then_ (BufferManip.emplace chk t k b n p v) allb.
Proof.
  intros H Hv. unfold BufferManip.emplace, ArrayManip.emplace. apply then_any. intros _. eapply then_bind; [apply b_dreserve; exact H|]. intros b1 H1.
  apply then_any. intros q. apply then_any. intros _. eapply then_bind; [apply b_shiftUp; exact H1|]. intros b2 H2. apply b_place; auto.
Qed.
Lemma b_erase chk t b n p : allb b -> then_ (BufferManip.erase chk t b n p) allb.
Proof.
  intros H. unfold BufferManip.erase, ArrayManip.erase. do 3 (apply then_any; intros _). apply then_any. intros q. cbn [Nat.eqb].
  do 2 (apply then_any; intros _). eapply then_bind; [apply b_shiftDown; exact H|]. intros b1 H1. apply then_any. intros d. apply b_destroy. auto.
Qed.
End Cells.

Section Range.
Variable V W : Type.
Variable hi : nat.
Variable chk tv tw dual : bool.
Variable kind : bkind.
Notation aoa := (aoa V W).
Implicit Types a : aoa.
Notation allb := (allb hi).
Definition rng a : Prop := numArrays a <= hi /\ allb (offs a) /\ allb (szs a).
Notation le := (fun v => v <= hi).

Lemma r_fit n : then_ (fit hi n) (fun m => m = n /\ m <= hi).
Proof. unfold fit. destruct (Nat.leb_spec n hi); [apply then_ok; auto|apply bad_then]. Qed.
Lemma r_sub x y : x <= hi -> then_ (sub_ix x y) le.
Proof. intros H v. unfold sub_ix. destruct (_ <=? _) eqn:E; [|discriminate]. intros G. injection G as <-. lia. Qed.
Lemma r_offset a i : rng a -> then_ (offset a i) le.
Proof. intros (_ & H & _). apply b_rd. exact H. Qed.
Lemma r_size_ a i : rng a -> then_ (size_ a i) le.
Proof. intros (_ & _ & H). apply b_rd. exact H. Qed.
Lemma r_size a i : rng a -> then_ (sizeOfArray chk a i) le.
Proof. intros H. unfold sizeOfArray. apply then_any. intros _. apply r_size_. exact H. Qed.
Lemma r_put_offset a i v : rng a -> v <= hi -> then_ (put_offset a i v) rng.
Proof.
  intros (H1 & H2 & H3) Hv. unfold put_offset, assign. eapply then_bind; [apply b_store; [exact H2|exact Hv]|]. intros o Ho. apply then_ok.
  split; [exact H1|]. split; auto.
Qed.
Lemma r_put_size a i v : rng a -> v <= hi -> then_ (put_size a i v) rng.
Proof.
  intros (H1 & H2 & H3) Hv. unfold put_size, assign. eapply then_bind; [apply b_store; [exact H3|exact Hv]|]. intros o Ho. apply then_ok.
  split; [exact H1|]. split; auto.
Qed.
Lemma r_each F a : rng a -> then_ (each tv tw dual F a) rng.
Proof.
  intros H. unfold each. apply then_any. intros v. destruct dual; [apply then_any; intros e|]; apply then_ok; exact H.
Qed.
Lemma r_destroyValues a i j : rng a -> then_ (destroyValues chk tv tw dual a i j) rng.
Proof. intros H. unfold destroyValues. do 2 (apply then_any; intros _). apply r_each. exact H. Qed.
Lemma r_scan caps : forall a i acc, rng a -> acc <= hi -> then_ (m_scan_into hi a i acc caps) rng.
Proof.
  induction caps as [|c caps IH]; intros a i acc H Ha; cbn [m_scan_into]; [apply then_ok; auto|].
  eapply then_bind; [apply r_fit|]. intros s [_ Hs]. eapply then_bind; [apply r_put_offset; eauto|]. intros a' H'. apply IH; auto.
Qed.

(** Steps through a member: known facts about the callee if there are any. *)
Ltac st := eapply then_bind;
  [first [apply r_fit | apply r_sub; eassumption | apply r_offset; eassumption | apply r_size_; eassumption | apply r_size; eassumption
         | apply r_put_offset; [eassumption|(eassumption || lia)] | apply r_put_size; [eassumption|(eassumption || lia)]
         | apply r_each; eassumption | apply r_destroyValues; eassumption ]|];
  cbn beta; let x := fresh "x" in let Hx := fresh "Hx" in intros x Hx; try (destruct Hx as [? ?]; subst x).
Ltac sk := apply then_any; let x := fresh "x" in intros x.

Lemma r_reserve a n : rng a -> then_ (m_aoa_reserve hi chk kind a n) rng.
Proof.
  intros H. pose proof H as (H1 & H2 & H3). unfold m_aoa_reserve. do 2 st. eapply then_bind; [apply b_reserve; exact H2|]. intros o Ho.
  eapply then_bind; [apply b_reserve; exact H3|]. intros s Hs. apply then_ok. split; [exact H1|split; auto].
Qed.
Lemma r_reserveValues a n : rng a -> then_ (reserveValues chk tv tw dual kind a n) rng.
Proof. intros H. unfold reserveValues. sk. apply r_each. exact H. Qed.
Lemma r_compress a : rng a -> then_ (m_compress hi chk tv tw dual a) rng.
Proof.
  intros H. unfold m_compress. destruct (_ =? _); [apply then_ok; auto|].
  eapply then_bind; [apply then_up with (I := rng); [|exact H]|].
  - intros i s Hs. do 9 st. apply r_put_offset; auto.
  - intros a1 Ha. do 3 st. apply r_put_offset; auto.
Qed.
Lemma r_caps a caps : rng a -> then_ (m_resizeFromCapacities hi chk tv tw dual kind a caps) rng.
Proof.
  intros H. unfold m_resizeFromCapacities. st. pose proof Hx as (H1 & H2 & H3). eapply then_bind; [apply b_reserve; exact H3|]. intros s Hs.
  eapply then_bind; [apply then_up with (I := allb); [|exact Hs]; intros; unfold assign; apply b_store; simpl; auto; lia|]. intros s2 Hs2.
  sk. st. eapply then_bind; [apply b_reserve; exact H2|]. intros o Ho.
  eapply then_bind; [apply r_put_offset; [|lia]; split; [exact H1|split; [exact Ho|exact Hs2]]|]. intros a2 Ha2.
  eapply then_bind; [apply r_scan; [exact Ha2|lia]|]. intros a3 (_ & Ha3 & Hb3). sk. apply r_each. split; [cbn; lia|split; auto].
Qed.
Lemma r_resize a n cap : rng a -> then_ (m_resizeImpl hi chk tv tw dual kind a n cap) rng.
Proof.
  intros H. unfold m_resizeImpl. sk. destruct (_ <? _).
  - st. pose proof Hx as (H1 & H2 & H3). st. eapply then_bind; [apply b_resize; [exact H2|lia]|]. intros o Ho.
    eapply then_bind; [apply b_resize; [exact H3|lia]|]. intros s Hs. apply then_ok. split; [cbn; lia|split; auto].
  - pose proof H as (H1 & H2 & H3).
    eapply then_bind with (Q := le); [destruct (_ =? _); [apply then_ok; lia|apply r_offset; auto]|]. intros oo Hoo. st.
    eapply then_bind; [apply b_resize; [exact H2|exact Hoo]|]. intros o Ho.
    eapply then_bind; [apply b_resize; [exact H3|lia]|]. intros s Hs.
    assert (HS : rng (set_szs s (set_offs o a))) by (split; [exact H1|split; auto]).
    eapply then_bind with (Q := rng).
    + destruct (_ <? _); [|apply then_ok; exact HS].
      eapply then_bind; [apply then_up with (I := rng); [|exact HS]|].
      * intros i a1 Ha1. do 2 st. apply r_put_offset; auto.
      * intros a2 Ha2. do 2 sk. apply r_each. exact Ha2.
    + intros a2 (_ & Ha2 & Hb2). apply then_ok. split; [cbn; lia|split; auto].
Qed.
Lemma r_setcap a i c : rng a -> then_ (m_setCapacityOfArray hi chk tv tw dual kind a i c) rng.
Proof.
  intros H. unfold m_setCapacityOfArray. do 2 sk. destruct (_ =? _); [apply then_ok; auto|]. destruct (_ <? _).
  - st. st. sk. apply then_up with (I := rng); [|auto]. intros k s Hs. do 2 st. apply r_put_offset; auto.
  - do 2 st. eapply then_bind; [apply r_put_size; [exact H|]|].
    + lia.
    + intros a1 Ha1. st. sk. apply then_up with (I := rng); [|auto]. intros k s Hs. do 2 st. apply r_put_offset; auto.
Qed.
Lemma r_push a : rng a -> then_ (m_push_array hi chk kind a) rng.
Proof.
  intros H. pose proof H as (H1 & H2 & H3). unfold m_push_array. do 2 st. eapply then_bind; [apply b_emplaceBack; [exact H2|exact Hx]|]. intros o Ho.
  eapply then_bind; [apply b_emplaceBack; [exact H3|lia]|]. intros s Hs. apply then_ok. split; [cbn; lia|split; auto].
Qed.
Lemma r_open a i : rng a -> then_ (m_open_array hi chk kind a i) rng.
Proof.
  intros H. pose proof H as (H1 & H2 & H3). unfold m_open_array. sk. do 3 st. eapply then_bind; [apply b_emplace; [exact H2|exact Hx]|]. intros o Ho.
  eapply then_bind; [apply b_emplace; [exact H3|lia]|]. intros s Hs. apply then_ok. split; [cbn; lia|split; auto].
Qed.
Lemma r_erase a i : rng a -> then_ (m_eraseArray hi chk tv tw dual kind a i) rng.
Proof.
  intros H. unfold m_eraseArray. sk. eapply then_bind; [apply r_setcap; exact H|]. intros a1 (G1 & G2 & G3). do 2 st.
  eapply then_bind; [apply b_erase; exact G2|]. intros o Ho. eapply then_bind; [apply b_erase; exact G3|]. intros s Hs.
  apply then_ok. split; [cbn; lia|split; auto].
Qed.

(** ** ArrayOfArrays *)
Lemma r_grow a i n : rng a -> then_ (m_dynamicallyGrowArray hi chk tv tw dual kind a i n) rng.
Proof. intros H. unfold m_dynamicallyGrowArray. do 2 st. sk. destruct (_ <? _); [st; apply r_setcap; auto|apply then_ok; auto]. Qed.
Lemma r_resizeArray a i n v : rng a -> n <= hi -> then_ (m_resizeArray hi chk tv tw dual kind a i n v) rng.
Proof.
  intros H Hn. unfold m_resizeArray. do 2 sk. eapply then_bind with (Q := rng); [destruct (_ <? _); [apply r_setcap; auto|apply then_ok; auto]|].
  intros a1 G1. do 4 sk. apply r_put_size; auto.
Qed.
Lemma r_appendTo a i vs : rng a -> then_ (m_appendToArray hi chk tv tw dual kind a i vs) rng.
Proof.
  intros H. unfold m_appendToArray, m_v_appendToArray. st. eapply then_bind; [apply r_grow; exact H|]. intros a1 G1. do 3 sk. apply then_any. intros [b d].
  st. sk. st. apply r_put_size; auto.
Qed.
(** The number of elements asked for is an INDEX_TYPE. *)
Definition a_args (c : acall V) : Prop := match c with AAppend n | AResizeArray _ n _ => n <= hi | _ => True end.
Lemma r_astep dflt c a : rng a -> a_args c -> then_ (m_astep hi chk tv tw dual kind dflt c a) rng.
Proof.
  intros H Hc. destruct c; cbn [m_astep a_args] in *.
  - apply r_resize; auto.
  - apply r_caps; auto.
  - apply r_reserve; auto.
  - apply r_reserveValues; auto.
  - apply r_compress; auto.
  - unfold m_appendArray. eapply then_bind; [apply r_push; exact H|]. intros a1 G1. apply r_resizeArray; auto.
  - unfold m_appendArrayFrom. eapply then_bind; [apply r_push; exact H|]. intros a1 G1. apply r_appendTo; auto.
  - unfold m_insertArray. eapply then_bind; [apply r_open; exact H|]. intros a1 G1. apply r_appendTo; auto.
  - apply r_erase; auto.
  - unfold m_emplaceBack, m_v_emplaceBack. eapply then_bind; [apply r_grow; exact H|]. intros a1 G1. do 3 sk. st. sk. st. apply r_put_size; auto.
  - apply r_appendTo; auto.
  - unfold m_emplace, m_v_emplace. eapply then_bind; [apply r_grow; exact H|]. intros a1 G1. do 3 sk. st. sk. st. apply r_put_size; auto.
  - unfold m_insertIntoArray, m_v_insertIntoArray. st. eapply then_bind; [apply r_grow; exact H|]. intros a1 G1. sk. st. sk. sk. st. sk. st. apply r_put_size; auto.
  - unfold eraseFromArray. do 2 sk. st. sk. st. apply r_put_size; auto.
  - apply r_resizeArray; auto.
  - apply r_resizeArray; auto. lia.
  - apply r_setcap; auto.
  - unfold m_aoa_set. do 2 sk. apply then_ok. exact H.
Qed.
Lemma r_arun dflt h : forall a, rng a -> Forall a_args h -> then_ (m_arun hi chk tv tw dual kind dflt h a) rng.
Proof.
  induction h as [|c h IH]; intros a H F; cbn [m_arun]; [apply then_ok; auto|]. inversion F; subst.
  eapply then_bind; [apply r_astep; auto|]. intros a' H'. apply IH; auto.
Qed.
Lemma r_null : rng (null_aoa V W kind).
Proof. unfold null_aoa, empty_buf. split; [cbn; lia|]. destruct kind; cbn [offs szs]; split; try constructor; apply b_raw. Qed.

(** ** The sorted rows: the containers are changed by the callbacks only. *)
Section CB.
Variable lt eqb : V -> V -> bool.
Notation X := (aoa * nat)%type.
Variable cb : callbacks V X.
Notation I := (fun x : X => rng (fst x)).
Notation J := (fun r => rng (fst (snd (fst r)))).
Hypothesis Hinc : forall n b x, I x -> then_ (cb_inc cb n (b, x)) (fun r => rng (fst (snd (fst r)))).
Hypothesis Hev : forall ev x, I x -> then_ (cb_ev cb ev x) I.

Lemma s_insert b x p n v : I x -> then_ (insert chk tv lt eqb cb b x p n v) (fun r => rng (fst (snd (fst r)))).
Proof.
  intros H. unfold insert. do 2 sk. destruct x1.
  - eapply then_bind; [apply Hinc; exact H|]. intros [[b' x'] q] H'. apply then_ok. exact H'.
  - eapply then_bind; [apply Hinc; exact H|]. intros [[b' x'] q] H'. sk. eapply then_bind; [apply Hev; exact H'|]. intros x2 H2. apply then_ok. exact H2.
Qed.
Lemma s_set vs : forall b x p n, I x -> then_ (set_loop tv cb b x p n vs) (fun r => rng (fst (snd (fst r)))).
Proof.
  induction vs as [|v vs IH]; intros b x p n H; cbn [set_loop]; [apply then_ok; exact H|]. sk. eapply then_bind; [apply Hev; exact H|]. intros x2 H2. apply IH. exact H2.
Qed.
Lemma s_loop vs : forall b x p ub n, I x -> then_ (insert_loop chk tv lt eqb cb b x p ub n vs) (fun r => rng (fst (snd r))).
Proof.
  induction vs as [|v vs IH]; intros b x p ub n H; cbn [insert_loop]; [apply then_ok; exact H|]. do 2 sk. destruct x1; [apply IH; exact H|]. do 3 sk.
  eapply then_bind; [apply Hev; exact H|]. intros x5 H2. apply IH. exact H2.
Qed.
Lemma s_inserts b x p n vs : I x -> then_ (inserts chk tv lt eqb cb b x p n vs) (fun r => rng (fst (snd (fst r)))).
Proof.
  intros H. unfold inserts. destruct (_ =? _).
  - eapply then_bind; [apply Hinc; exact H|]. intros [[b' x'] q] H'. apply s_set. exact H'.
  - sk. eapply then_bind; [apply Hinc; exact H|]. intros [[b' x'] q] H'. destruct (_ =? _); [apply then_ok; exact H'|].
    eapply then_bind; [apply s_loop; exact H'|]. intros [b2 x2] H2. apply then_ok. exact H2.
Qed.
Lemma s_remove b x p n v : I x -> then_ (remove chk tv lt eqb cb b x p n v) (fun r => rng (fst (snd (fst r)))).
Proof.
  intros H. unfold remove. sk. destruct (_ =? _); [apply then_ok; exact H|]. sk. destruct (negb _); [apply then_ok; exact H|]. sk.
  eapply then_bind; [apply Hev; exact H|]. intros x3 H2. apply then_ok. exact H2.
Qed.
Lemma s_rloop fuel : forall vs b x p size n pos, I x -> then_ (remove_loop chk tv lt eqb cb fuel b x p size n pos vs) (fun r => rng (fst (snd (fst r)))).
Proof.
  induction fuel as [|fuel IH]; intros [|v vs] b x p size n pos H; cbn [remove_loop]; try (apply then_ok; exact H); [apply bad_then|].
  apply then_any. intros [np next]. sk. eapply then_bind; [apply Hev; exact H|]. intros x3 H2. destruct (_ =? _); [apply then_ok; exact H2|apply IH; exact H2].
Qed.
Lemma s_removes b x p n vs : I x -> then_ (removes chk tv lt eqb cb b x p n vs) (fun r => rng (fst (snd (fst r)))).
Proof.
  intros H. unfold removes. apply then_any. intros [pos found]. destruct found; [apply then_ok; exact H|].
  eapply then_bind; [apply s_rloop; exact H|]. intros [[b' x'] m] H'. sk. apply then_ok. exact H'.
Qed.

Lemma i_insert a e i v : rng a -> then_ (m_insertIntoSetImpl hi chk tv lt eqb cb a e i v) (fun r => rng (fst r)).
Proof.
  intros H. unfold m_insertIntoSetImpl. do 3 sk. eapply then_bind; [apply s_insert; exact H|]. intros [[b x'] ok] H'. cbn [fst snd] in H'.
  sk. st. eapply then_bind; [apply r_put_size; [exact H'|auto]|]. intros a2 G2. apply then_ok. exact G2.
Qed.
Lemma i_inserts a e i vs : rng a -> then_ (m_insertsIntoSetImpl hi chk tv lt eqb cb a e i vs) (fun r => rng (fst r)).
Proof.
  intros H. unfold m_insertsIntoSetImpl. do 3 sk. eapply then_bind; [apply s_inserts; exact H|]. intros [[b x'] ok] H'. cbn [fst snd] in H'.
  st. sk. st. eapply then_bind; [apply r_put_size; [exact H'|auto]|]. intros a2 G2. apply then_ok. exact G2.
Qed.
Lemma i_remove a e i v : rng a -> then_ (removeFromSetImpl chk tv lt eqb cb a e i v) (fun r => rng (fst r)).
Proof.
  intros H. unfold removeFromSetImpl. do 3 sk. eapply then_bind; [apply s_remove; exact H|]. intros [[b x'] ok] H'. cbn [fst snd] in H'.
  eapply then_bind; [apply r_size_; exact H'|]. intros s Hs. eapply then_bind; [apply r_sub; exact Hs|]. intros s' Hs'.
  eapply then_bind; [apply r_put_size; [exact H'|exact Hs']|]. intros a2 G2. apply then_ok. exact G2.
Qed.
Lemma i_removes a e i vs : rng a -> then_ (m_removesFromSetImpl hi chk tv lt eqb cb a e i vs) (fun r => rng (fst r)).
Proof.
  intros H. unfold m_removesFromSetImpl. do 3 sk. eapply then_bind; [apply s_removes; exact H|]. intros [[b x'] ok] H'. cbn [fst snd] in H'.
  st. eapply then_bind; [apply r_size_; exact H'|]. intros s Hs. eapply then_bind; [apply r_sub; exact Hs|]. intros s' Hs'.
  eapply then_bind; [apply r_put_size; [exact H'|exact Hs']|]. intros a2 G2. apply then_ok. exact G2.
Qed.
End CB.

Lemma g_inc mnew i n b (x : aoa * nat) : rng (fst x) -> then_ (cb_inc (m_grow_cb V W hi chk tv tw dual kind mnew i) n (b, x)) (fun r => rng (fst (snd (fst r)))).
Proof.
  destruct x as [a e]. intros H. cbn [cb_inc m_grow_cb fst] in *. st. sk. st. sk.
  eapply then_bind with (Q := rng); [destruct (_ <? _); [sk; apply r_setcap; exact H|apply then_ok; exact H]|]. intros a' H'. sk. apply then_ok. exact H'.
Qed.
Lemma v_inc i n b (x : aoa * nat) : rng (fst x) -> then_ (cb_inc (view_cb V W chk i) n (b, x)) (fun r => rng (fst (snd (fst r)))).
Proof. destruct x as [a e]. intros H. cbn [cb_inc view_cb fst] in *. do 2 sk. apply then_ok. exact H. Qed.
Lemma no_ev (x : aoa * nat) : rng (fst x) -> then_ (Ok x) (fun x => rng (fst x)).
Proof. intros H. apply then_ok. exact H. Qed.

(** ** ArrayOfSets *)
Section Sets.
Variable lt eqb : V -> V -> bool.
Variable dflt : V.
Notation R := (fun r : aoa * nat => rng (fst r)).
Lemma r_void (m : outcome aoa) : then_ m rng -> then_ (void m) R.
Proof. intros H. unfold void. eapply then_bind; [exact H|]. intros a Ha. apply then_ok. exact Ha. Qed.
Lemma r_tstep c a : rng a -> then_ (m_tstep hi chk tv tw dual kind lt eqb dflt c a) R.
Proof.
  intros H. destruct c; cbn [m_tstep]; try apply r_void.
  - apply r_resize; auto.
  - apply r_caps; auto.
  - apply r_reserve; auto.
  - apply r_reserveValues; auto.
  - apply r_compress; auto.
  - unfold m_appendSet. eapply then_bind; [apply r_push; exact H|]. intros a1 G1. apply r_setcap; auto.
  - unfold m_insertSet. eapply then_bind; [apply r_open; exact H|]. intros a1 G1. apply r_setcap; auto.
  - apply r_erase; auto.
  - eapply then_bind; [apply i_insert; [intros; apply g_inc; auto|intros; apply no_ev; auto|exact H]|]. intros [a' r] H'. apply then_ok. exact H'.
  - apply i_inserts; [intros; apply g_inc; auto|intros; apply no_ev; auto|exact H].
  - eapply then_bind; [apply i_remove; [intros; apply no_ev; auto|exact H]|]. intros [a' r] H'. apply then_ok. exact H'.
  - apply i_removes; [intros; apply no_ev; auto|exact H].
  - unfold clearSet. do 4 sk. apply r_put_size; [exact H|lia].
  - apply r_setcap; auto.
  - unfold m_reserveCapacityOfSet. do 2 sk. destruct (_ <? _); [apply r_setcap; auto|apply then_ok; auto].
Qed.
Lemma r_trun h : forall a, rng a -> then_ (m_trun hi chk tv tw dual kind lt eqb dflt h a) rng.
Proof.
  induction h as [|c h IH]; intros a H; cbn [m_trun]; [apply then_ok; auto|].
  eapply then_bind; [apply r_tstep; auto|]. intros [a' r] H'. apply IH; auto.
Qed.
End Sets.
End Range.

(** What can be read of the arithmetic. *)
Definition representable {V W} (hi : nat) (a : aoa V W) : Prop :=
  numArrays a <= hi /\ (forall i o, offset a i = Ok o -> o <= hi) /\ (forall i s, size_ a i = Ok s -> s <= hi).
Lemma rng_representable V W hi (a : aoa V W) : rng hi a -> representable hi a.
Proof.
  intros H. split; [exact (proj1 H)|]. split; [intros i o; exact (@r_offset V W hi a i H o)|intros i s; exact (@r_size_ V W hi a i H s)].
Qed.

(** ** SparsityPattern and CRSMatrix *)
Ltac sk := apply then_any; let x := fresh "x" in intros x.
Section Pattern.
Variable W : Type.
Variable hi : nat.
Variable chk tw dual : bool.
Variable kind : bkind.
Variable cmax : Z.
Implicit Types p : pattern W.
Notation rngp := (fun p : pattern W => rng hi (rows p)).
Notation R := (fun r : pattern W * nat => rng hi (rows (fst r))).

Lemma p_quiet (m : outcome (pattern W)) : then_ m rngp -> then_ (quiet m) R.
Proof. intros H. unfold quiet. eapply then_bind; [exact H|]. intros a Ha. apply then_ok. exact Ha. Qed.
Lemma p_on (m : outcome (aoa Z W)) p : then_ m (rng hi) -> then_ (on_rows m p) rngp.
Proof. intros H. unfold on_rows. eapply then_bind; [exact H|]. intros a Ha. apply then_ok. exact Ha. Qed.
Lemma p_with {T} (m : outcome (aoa Z W * T)) p : then_ m (fun r => rng hi (fst r)) -> then_ (with_rows p m) (fun r => rng hi (rows (fst r))).
Proof. intros H. unfold with_rows. eapply then_bind; [exact H|]. intros [a r] Ha. apply then_ok. exact Ha. Qed.
Lemma p_flag (m : outcome (pattern W * bool)) : then_ m (fun r => rng hi (rows (fst r))) -> then_ ('(p', r) <- m ;; Ok (p', flag r)) R.
Proof. intros H. eapply then_bind; [exact H|]. intros [a r] Ha. apply then_ok. exact Ha. Qed.

Lemma q_resize p n c k : rngp p -> then_ (m_sp_resize hi chk tw dual kind cmax p n c k) rngp.
Proof. intros H. unfold m_sp_resize. sk. eapply then_bind; [apply r_resize; exact H|]. intros a Ha. apply then_ok. exact Ha. Qed.
Lemma q_caps p c k : rngp p -> then_ (m_sp_resizeFromRowCapacities hi chk tw dual kind cmax p c k) rngp.
Proof. intros H. unfold m_sp_resizeFromRowCapacities. sk. eapply then_bind; [apply r_caps; exact H|]. intros a Ha. apply then_ok. exact Ha. Qed.
Lemma q_new nr nc cap : then_ (m_new_sp W hi chk tw dual kind cmax nr nc cap) rngp.
Proof. apply q_resize. apply r_null. Qed.
Lemma q_setRow p i c : rngp p -> then_ (m_setRowCapacity hi chk tw dual kind p i c) rngp.
Proof. intros H. unfold m_setRowCapacity. apply p_on. apply r_setcap. exact H. Qed.
Lemma q_reserveRow p i c : rngp p -> then_ (m_reserveRow hi chk tw dual kind p i c) rngp.
Proof. intros H. unfold m_reserveRow. sk. destruct (_ <=? _); [apply then_ok; exact H|apply q_setRow; exact H]. Qed.
Lemma q_compress p : rngp p -> then_ (m_sp_compress hi chk tw dual p) rngp.
Proof. intros H. unfold m_sp_compress. apply p_on. apply r_compress. exact H. Qed.
Lemma q_values p n : rngp p -> then_ (reserveNonZeros chk tw dual kind p n) rngp.
Proof. intros H. unfold reserveNonZeros. apply p_on. apply r_reserveValues. exact H. Qed.

Lemma r_pstep c p : rngp p -> then_ (m_pstep hi chk tw dual kind cmax c p) R.
Proof.
  intros H. destruct c; cbn [m_pstep]; try apply p_quiet.
  - apply q_resize; auto.
  - apply q_caps; auto.
  - unfold m_reserveRows. apply p_on. apply r_reserve. exact H.
  - apply q_values; auto.
  - apply q_reserveRow; auto.
  - apply q_setRow; auto.
  - apply q_compress; auto.
  - unfold m_appendRow. eapply then_bind; [apply r_push; exact H|]. intros a1 G1. apply q_setRow. exact G1.
  - apply p_flag, p_with. apply i_insert; [intros; apply g_inc; auto|intros; apply no_ev; auto|exact H].
  - apply p_with. apply i_inserts; [intros; apply g_inc; auto|intros; apply no_ev; auto|exact H].
  - apply p_flag. unfold removeNonZero. do 2 sk. apply p_with. apply i_remove; [intros; apply no_ev; auto|exact H].
  - unfold m_removeNonZeros. do 2 sk. apply p_with. apply i_removes; [intros; apply no_ev; auto|exact H].
Qed.
Lemma r_prun h : forall p, rngp p -> then_ (m_prun hi chk tw dual kind cmax h p) rngp.
Proof.
  induction h as [|c h IH]; intros a H; cbn [m_prun]; [apply then_ok; auto|].
  eapply then_bind; [apply r_pstep; auto|]. intros [a' r] H'. apply IH; auto.
Qed.
(** numNonZeros() is an INDEX_TYPE by its last addition. *)
Lemma r_total p : then_ (m_totalNonZeros hi chk p) (fun n => n <= hi).
Proof. unfold m_totalNonZeros. apply then_up with (I := fun n => n <= hi); [|lia]. intros i s _. sk. eapply then_mono; [apply r_fit|]. simpl. tauto. Qed.
End Pattern.

Section CRS.
Variable W : Type.
Variable hi : nat.
Variable chk tw : bool.
Variable kind : bkind.
Variable cmax : Z.
Variable add : W -> W -> W.
Variable zero : W.
Implicit Types p : pattern W.
Notation rngp := (fun p : pattern W => rng hi (rows p)).
Notation R := (fun r : pattern W * nat => rng hi (rows (fst r))).

Lemma c_ev nnz ws ev (x : aoa Z W * nat) : rng hi (fst x) -> then_ (m_crs_ev hi chk tw nnz ws ev x) (fun x => rng hi (fst x)).
Proof. destruct x as [a e]. intros H. unfold m_crs_ev, crs_ev. do 2 sk. apply then_ok. exact H. Qed.
Lemma c_inc p i nnz c ws n b (x : aoa Z W * nat) : rng hi (fst x) ->
  then_ (cb_inc (m_crs_cb hi chk tw kind p i nnz c ws) n (b, x)) (fun r => rng hi (fst (snd (fst r)))).
Proof.
  destruct x as [a e]. intros H. cbn [cb_inc m_crs_cb fst] in *. do 2 sk.
  eapply then_bind with (Q := rng hi); [destruct (_ <? _); [sk; apply r_setcap; exact H|apply then_ok; exact H]|]. intros a' H'. do 2 sk. apply then_ok. exact H'.
Qed.
Lemma c_each f (a : aoa Z W) : (forall a i, rng hi a -> then_ (f a i) (rng hi)) -> rng hi a -> then_ (each_row f a) (rng hi).
Proof. intros Hf H. unfold each_row. apply then_up with (I := rng hi); auto. Qed.
Lemma c_add p i adds : rngp p -> then_ (addToRow chk tw add p i adds) rngp.
Proof.
  intros H. unfold addToRow, addBinary, addLinear. sk. destruct (_ && _); do 3 sk; apply then_any; intros [b k]; apply then_ok; exact H.
Qed.

Lemma r_cstep c p : rngp p -> then_ (m_cstep hi chk tw kind cmax add zero c p) R.
Proof.
  intros H. destruct c; cbn [m_cstep]; try apply p_quiet.
  - apply q_resize; auto.
  - apply q_caps; auto.
  - apply q_values; auto.
  - apply q_reserveRow; auto.
  - apply q_setRow; auto.
  - apply q_compress; auto.
  - apply p_flag. unfold m_crs_insertNonZero. do 2 sk. apply p_with. apply i_insert; [intros; apply c_inc; auto|intros; apply c_ev; auto|exact H].
  - unfold m_crs_insertNonZeros. do 3 sk. apply p_with. apply i_inserts; [intros; apply c_inc; auto|intros; apply c_ev; auto|exact H].
  - apply p_flag. unfold m_crs_removeNonZero. do 3 sk. apply p_with. apply i_remove; [intros; apply c_ev; auto|exact H].
  - unfold m_crs_removeNonZeros. do 3 sk. eapply then_bind; [apply i_removes; [intros; apply c_ev; auto|exact H]|]. intros [a n] H'. do 2 sk. apply then_ok. exact H'.
  - unfold crs_setValues. apply p_on. apply c_each; [|exact H]. intros a i Ha. unfold set_row. do 3 sk. apply then_ok. exact Ha.
  - unfold crs_zero. destruct tw; [apply then_ok; exact H|apply bad_then].
  - apply c_add; auto.
  - unfold addUnsorted. do 4 sk. apply then_ok. exact H.
Qed.
Lemma r_crun h : forall p, rngp p -> then_ (m_crun hi chk tw kind cmax add zero h p) rngp.
Proof.
  induction h as [|c h IH]; intros a H; cbn [m_crun]; [apply then_ok; auto|].
  eapply then_bind; [apply r_cstep; auto|]. intros [a' r] H'. apply IH; auto.
Qed.
End CRS.
