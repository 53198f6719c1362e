(** While the rows are at most [N] and their capacities at most [Q], with [N * Q] and [N + 1] in range, nothing
    overflows: the members of ArrayOfSets, SparsityPattern and CRSMatrix row by row. *)
From Coq Require Import List Arith ZArith Lia Bool Sorting.Sorted.
From Verif Require Import Base BaseProofs Mem MemProofs ArrayManipProofs BufferManip BufferManipProofs
  Sorted SortedSpec SortedProofs SortedProofs2 SortedProofs3 SortedArraySpec AoA AoASpec AoALayout AoAProofs AoAProofs2 AoAProofs4
  AoS AoSSpec SetsProofs SetsProofs2 Sparsity CRS MachineAoA MachineAoAProofs MachineAoAGen MachineSets MachineSetsProofs.
From Verif Require ArrayManip AoAProofs3.
Import ListNotations.
Set Implicit Arguments.
Unset Strict Implicit.

(** Not an overflow, so the same. *)
Lemma sim_okb {A} (m f : outcome A) t Q : sim m f -> okb t m Q -> m = f.
Proof. intros [E|E] H; auto. exfalso. rewrite E in H. destruct H as [(x & H & _)|[_ H]]; discriminate. Qed.
(** What holds of the result, if there is one. *)
Definition then_ {A} (m : outcome A) (Q : A -> Prop) : Prop := forall x, m = Ok x -> Q x.
Lemma okb_then {A} t (m : outcome A) (Q R : A -> Prop) : okb t m Q -> (forall x, Q x -> R x) -> then_ m R.
Proof. intros [(x & E & H)|[_ E]] I y E2; rewrite E in E2; [injection E2 as <-; auto|discriminate]. Qed.
Lemma then_ok {A} (x : A) (Q : A -> Prop) : Q x -> then_ (Ok x) Q.
Proof. intros H y E. injection E as <-. auto. Qed.
Lemma then_bind {A B} (m : outcome A) (f : A -> outcome B) Q (R : B -> Prop) : then_ m Q -> (forall x, Q x -> then_ (f x) R) -> then_ (bind m f) R.
Proof. intros H I y. destruct m as [x| |]; try discriminate. cbn [bind]. apply I. apply H. auto. Qed.
Lemma then_any {A B} (m : outcome A) (f : A -> outcome B) (R : B -> Prop) : (forall x, then_ (f x) R) -> then_ (bind m f) R.
Proof. intros H. apply then_bind with (Q := fun _ => True); auto. intros x _. auto. Qed.

Section Bounded.
Variable P V W : Type.
Variable fv : P -> V.
Variable fw : P -> W.
Variable hi N Q : nat.
Variable chk tv tw dual : bool.
Variable lt eqb : V -> V -> bool.
Hypothesis T : total_order lt eqb.
Notation kind := BMalloc.
Notation aoa := (aoa V W).
Notation X := (aoa * nat)%type.
Notation row := (list P * nat)%type.
Notation rows := (list row).
Notation aok := (@aok P V W fv fw tv tw dual).
Notation iok := (@iok P V W).
Notation wid := (@wid P).
Notation allt := (allt tv tw dual).
Notation pincr l := (StronglySorted (fun x y => lt (fv x) (fv y) = true) l).
Implicit Types a : aoa.
Implicit Types L A B : rows.
Hypothesis N_ok : N + 1 <= hi.
Hypothesis NQ_ok : N * Q <= hi.

Definition thin L : Prop := Forall (fun x => wid x <= Q) L.
Definition capped a : Prop := forall L, iok a L -> thin L.
Notation small L := (length L <= N /\ thin L).

Lemma total_thin L : thin L -> total L <= length L * Q.
Proof. induction 1 as [|x L H F IH]; simpl; [lia|]. lia. Qed.
Lemma small_total L : small L -> total L <= hi.
Proof. intros [H1 H2]. pose proof (total_thin H2). assert (length L * Q <= N * Q) by (apply Nat.mul_le_mono_r; auto). lia. Qed.
Lemma small_rows L : small L -> length L + 1 <= hi.
Proof. intros [H _]. lia. Qed.
Lemma small_Q A x B : small (A ++ x :: B) -> Q <= hi.
Proof.
  intros [H _]. rewrite app_length in H. simpl in H. assert (1 * Q <= N * Q) by (apply Nat.mul_le_mono_r; lia). lia.
Qed.
Lemma thin_app A B : thin (A ++ B) <-> thin A /\ thin B.
Proof. apply Forall_app. Qed.
Lemma thin_put A x y B : thin (A ++ x :: B) -> wid y <= Q -> thin (A ++ y :: B).
Proof. rewrite !thin_app. intros [H1 H2] Hy. split; auto. inversion H2; subst. constructor; auto. Qed.

(** The widths are determined by the offsets. *)
Lemma capped_intro a L : iok a L -> thin L -> capped a.
Proof.
  intros I H L' I'. pose proof I as (N1 & _). pose proof I' as (N2 & _). apply Forall_forall. intros x Hx. apply In_nth_error in Hx. destruct Hx as [k Hk].
  assert (k < length L') by (apply nth_error_Some; congruence).
  destruct (nth_error L k) as [y|] eqn:Ey; [|apply nth_error_None in Ey; lia].
  pose proof (capacityOf_at false I' Hk) as C1. rewrite (capacityOf_at false I Ey) in C1. injection C1 as <-.
  unfold thin in H. rewrite Forall_forall in H. apply H. eapply nth_error_In; eauto.
Qed.
Lemma aok_capped a L : aok a L -> thin L -> capped a.
Proof. intros [I _] H. eapply capped_intro; eauto. Qed.
Lemma capped_same a a' L' : capped a -> numArrays a' = numArrays a -> offs a' = offs a -> iok a' L' -> forall L, iok a L -> capped a'.
Proof.
  intros H En Eo I' L I. apply (capped_intro I'). specialize (H L I). pose proof I as (N1 & _). pose proof I' as (N2 & _).
  apply Forall_forall. intros x Hx. apply In_nth_error in Hx. destruct Hx as [k Hk].
  assert (k < length L') by (apply nth_error_Some; congruence).
  destruct (nth_error L k) as [y|] eqn:Ey; [|apply nth_error_None in Ey; lia].
  pose proof (capacityOf_at false I' Hk) as C1. pose proof (capacityOf_at false I Ey) as C2.
  assert (E : capacityOfArray false a' k = capacityOfArray false a k) by (unfold capacityOfArray, check_array, check_if, offset; rewrite Eo; reflexivity).
  rewrite E, C2 in C1. injection C1 as <-.
  unfold thin in H. rewrite Forall_forall in H. apply H. eapply nth_error_In; eauto.
Qed.

Notation same m f R := (m = f /\ then_ f R).

Lemma e_resize a L n cap : aok a L -> small L -> n <= N -> cap <= Q ->
  same (m_resizeImpl hi chk tv tw dual kind a n cap) (resizeImpl chk tv tw dual kind a n cap) capped.
Proof.
  intros H S Hn Hc.
  assert (Th : thin (resized L n cap)).
  { unfold resized. apply thin_app. split.
    - destruct S as [_ S]. apply Forall_forall. intros x Hx. unfold thin in S. rewrite Forall_forall in S. apply S. rewrite <- (firstn_skipn n L). apply in_app_iff. auto.
    - apply Forall_forall. intros x Hx. apply repeat_spec in Hx. subst. exact Hc. }
  split.
  - rewrite (m_resize_exact chk cap (aok_pok H)); [|intros _; apply small_rows; auto|lia|apply small_total; auto].
    assert (total (resized L n cap) <= hi). { apply small_total. split; auto. unfold resized. rewrite app_length, firstn_length, repeat_length. lia. }
    destruct (Nat.leb_spec (total (resized L n cap)) hi); [reflexivity|lia].
  - eapply okb_then; [apply resize_ok, aok_pok; exact H|]. intros a' H'. eapply aok_capped; [exact H'|]. try exact Th.
Qed.
Lemma e_caps a L caps : aok a L -> small L -> length caps <= N -> Forall (fun c => c <= Q) caps ->
  same (m_resizeFromCapacities hi chk tv tw dual kind a caps) (resizeFromCapacities chk tv tw dual kind a caps) capped.
Proof.
  intros H S Hn Hc.
  assert (Ts : list_sum caps <= length caps * Q). { clear -Hc. induction Hc; simpl; lia. }
  assert (length caps * Q <= N * Q) by (apply Nat.mul_le_mono_r; auto).
  split.
  - eapply m_caps_eq; [exact H|apply small_rows; auto|lia|lia].
  - eapply (okb_then (t := true)); [left; eapply resizeFromCapacities_ok, aok_pok; exact H|]. intros a' H'. eapply aok_capped; [exact H'|]. try exact Th.
    unfold empties. apply Forall_forall. intros x Hx. apply in_map_iff in Hx. destruct Hx as (c & <- & Hx). rewrite Forall_forall in Hc. specialize (Hc _ Hx). unfold AoALayout.wid. simpl. exact Hc.
Qed.
Lemma e_reserve a L n : aok a L -> small L -> n + 1 <= hi -> same (m_aoa_reserve hi chk kind a n) (aoa_reserve chk kind a n) capped.
Proof.
  intros H S Hn. split; [eapply m_reserve_eq; eauto; apply small_rows; auto|].
  eapply (okb_then (t := true)); [left; apply reserve_ok; exact H|]. intros a' H'. eapply aok_capped; [exact H'|]. apply S.
Qed.
Lemma e_reserveValues a L n : aok a L -> small L -> then_ (reserveValues chk tv tw dual kind a n) capped.
Proof. intros H S. eapply okb_then; [apply reserveValues_ok; exact H|]. intros a' H'. eapply aok_capped; [exact H'|]. apply S. Qed.
Lemma e_compress a L : aok a L -> small L -> same (m_compress hi chk tv tw dual a) (compress chk tv tw dual a) capped.
Proof.
  intros H S. split; [eapply m_compress_eq; eauto; [apply small_rows in S; lia|apply small_total; auto]|].
  eapply (okb_then (t := true)); [left; apply compress_ok; exact H|]. intros a' H'. eapply aok_capped; [exact H'|]. try exact Th.
  destruct S as [_ S]. unfold closed. apply Forall_forall. intros x Hx. apply in_map_iff in Hx. destruct Hx as ([r k] & <- & Hx).
  unfold thin in S. rewrite Forall_forall in S. specialize (S _ Hx). unfold AoALayout.wid in *. simpl in *. lia.
Qed.
Lemma e_setcap a A r k B c : aok a (A ++ (r, k) :: B) -> small (A ++ (r, k) :: B) -> c <= Q ->
  same (m_setCapacityOfArray hi chk tv tw dual kind a (length A) c) (setCapacityOfArray chk tv tw dual kind a (length A) c) capped.
Proof.
  intros H S Hc.
  assert (Th : thin (A ++ (firstn c r, c - length r) :: B)).
  { eapply thin_put; [apply S|]. unfold AoALayout.wid. simpl. rewrite firstn_length. lia. }
  split.
  - eapply m_setcap_eq; [apply small_rows; exact S|apply small_total; exact S|exact H|].
    assert (K : total (A ++ (([] : list P), c) :: B) <= hi).
    { apply small_total. split; [destruct S as [S _]; rewrite app_length in *; exact S|]. eapply thin_put; [apply S|]. unfold AoALayout.wid. simpl. auto. }
    rewrite total_mid in K. simpl in K. exact K.
  - eapply okb_then; [eapply setCapacity_ok; [exact H|reflexivity]|]. intros a' H'. eapply aok_capped; [exact H'|]. try exact Th.
Qed.
Lemma e_append a L c : aok a L -> small L -> length L < N -> c <= Q ->
  same (m_appendSet hi chk tv tw dual kind a c) (appendSet chk tv tw dual kind a c) capped.
Proof.
  intros H S Hl Hc. unfold m_appendSet, appendSet. rewrite (m_push_eq chk H) by lia.
  destruct (push_ok chk H) as (a1 & -> & H1). cbn [bind]. pose proof H1 as [(N1 & _) _]. rewrite N1.
  replace (length (L ++ [([], 0)]) - 1) with (length L) by len. eapply e_setcap; [exact H1| |auto].
  split; [rewrite app_length; simpl; lia|]. apply thin_app. split; [apply S|]. constructor; auto. unfold AoALayout.wid. simpl. lia.
Qed.
Lemma e_insertSet a L i c : aok a L -> small L -> length L < N -> i <= length L -> c <= Q ->
  same (m_insertSet hi chk tv tw dual kind a i c) (insertSet chk tv tw dual kind a i c) capped.
Proof.
  intros H S Hl Hi Hc. unfold m_insertSet, insertSet. rewrite (m_open_eq chk H Hi) by lia.
  destruct (split_le Hi) as (A & B & -> & <-). destruct (open_ok chk H eq_refl) as (a1 & -> & H1). cbn [bind].
  eapply e_setcap; [exact H1| |auto]. rewrite !app_length in *. simpl in *. split; [lia|].
  destruct S as [_ S]. apply thin_app in S. destruct S as [S1 S2]. apply thin_app. split; auto. constructor; auto. unfold AoALayout.wid. simpl. lia.
Qed.
Lemma e_erase a L i : aok a L -> small L -> i < length L ->
  same (m_eraseSet hi chk tv tw dual kind a i) (eraseSet chk tv tw dual kind a i) capped.
Proof.
  intros H S Hi. unfold m_eraseSet, eraseSet. destruct (split_lt Hi) as (A & [r k] & B & -> & <-). split.
  - eapply m_erase_eq; [apply small_rows; exact S|apply small_total; exact S|exact H].
  - eapply okb_then; [eapply erase_ok; [exact H|reflexivity]|]. intros a' H'. eapply aok_capped; [exact H'|]. try exact Th.
    destruct S as [_ S]. apply thin_app in S. destruct S as [S1 S2]. inversion S2; subst. apply thin_app. auto.
Qed.
Lemma e_cap a A r k B : aok a (A ++ (r, k) :: B) -> small (A ++ (r, k) :: B) ->
  m_capacityOfArray hi chk a (length A) = Ok (length r + k) /\ capacityOfArray chk a (length A) = Ok (length r + k).
Proof.
  intros [I _] [S _]. rewrite m_cap_eq; [rewrite (row_capacity chk I); auto|]. rewrite app_length in S. simpl in S. lia.
Qed.
Lemma e_reserveCap a A r k B c : aok a (A ++ (r, k) :: B) -> small (A ++ (r, k) :: B) -> c <= Q ->
  same (m_reserveCapacityOfSet hi chk tv tw dual kind a (length A) c) (reserveCapacityOfSet chk tv tw dual kind a (length A) c) capped.
Proof.
  intros H S Hc. unfold m_reserveCapacityOfSet, reserveCapacityOfSet. pose proof H as [I _]. rewrite (row_check chk I). cbn [bind].
  destruct (e_cap H S) as [-> ->]. cbn [bind]. destruct (length r + k <? c); [eapply e_setcap; eauto|]. split; auto. apply then_ok. eapply aok_capped; [exact H|]. apply S.
Qed.

(** ** Insertions *)
Lemma put_size_move a i n : put_size a i n <> Fault FMove.
Proof.
  unfold put_size, assign, store, aset, aget. destruct (nth_error (szs a) i) as [c|]; cbn [bind]; [|discriminate].
  destruct c; cbn [bind]; try discriminate; destruct (i <? length (szs a)); discriminate.
Qed.
Section CB.
Variable cb mcb : callbacks V X.
Hypothesis Inc : forall n st, sim (cb_inc mcb n st) (cb_inc cb n st).
Hypothesis Ev : forall e x, sim (cb_ev mcb e x) (cb_ev cb e x).
Variable A B : rows.
Variable C : nat.
Variable es' : list P.
Variable L : rows.
Hypothesis L_ok : small L.
Hypothesis L_len : length L = length (A ++ (es', C - length es') :: B).
Hypothesis AB_thin : thin A /\ thin B.
Hypothesis C_ok : C <= Q.
Hypothesis es_ok : length es' <= C.
Notation L' := (A ++ (es', C - length es') :: B).

Lemma after_thin : thin L'.
Proof. apply thin_app. split; [apply AB_thin|]. constructor; [|apply AB_thin]. unfold AoALayout.wid. simpl. lia. Qed.
Lemma after_small : small L'.
Proof. split; [rewrite <- L_len; apply L_ok|apply after_thin]. Qed.
Lemma after_len : length es' <= hi.
Proof. pose proof (small_Q after_small). lia. Qed.

Lemma e_insert a t e0 v (Qr : aoa * bool -> Prop) :
  okb t (insertIntoSetImpl chk tv lt eqb mcb a e0 (length A) v) (fun r => Qr r /\ aok (fst r) L') ->
  same (m_insertIntoSetImpl hi chk tv lt eqb mcb a e0 (length A) v) (insertIntoSetImpl chk tv lt eqb cb a e0 (length A) v) (fun r => capped (fst r)).
Proof.
  intros H. pose proof (sim_okb (sim_insertImpl2 chk tv lt eqb Inc Ev a e0 (length A) v) H) as E. rewrite <- E.
  split; [|eapply okb_then; [exact H|]; intros r [_ H']; eapply aok_capped; [exact H'|apply after_thin]].
  clear E. revert H. unfold m_insertIntoSetImpl, insertIntoSetImpl.
  destruct (check_array chk a (length A)); cbn [bind]; auto. destruct (sizeOfArray chk a (length A)); cbn [bind]; auto.
  destruct (getSetValues chk a (length A)); cbn [bind]; auto.
  match goal with |- okb _ (bind ?m _) _ -> _ => destruct m as [[[b x] s]| |] end; cbn [bind]; auto.
  destruct (size_ (set_vals b (fst x)) (length A)) as [z| |] eqn:Ez; cbn [bind]; auto. intros H.
  assert (z + (if s then 1 else 0) <= hi); [|rewrite fit_ok by auto; reflexivity].
  destruct H as [(r & H & _ & H')|[_ H]].
  - destruct (put_size (set_vals b (fst x)) (length A) (z + (if s then 1 else 0))) as [aa| |] eqn:E2; try discriminate. cbn [bind] in H. injection H as <-.
    cbn [fst] in H'. destruct H' as [I' _]. pose proof (row_size_ I') as S2.
    unfold put_size in E2. destruct (assign true _ _ _) as [zs| |] eqn:E3; try discriminate. cbn [bind] in E2. injection E2 as <-.
    apply assign_same in E3. unfold size_ in S2. cbn [szs set_szs] in S2. rewrite E3 in S2. injection S2 as ->. apply after_len.
  - destruct (put_size (set_vals b (fst x)) (length A) (z + (if s then 1 else 0))) eqn:E2; try discriminate. cbn [bind] in H. injection H as ->.
    exfalso. apply (put_size_move E2).
Qed.
Lemma e_inserts a t e0 vs (Qr : aoa * nat -> Prop) : (forall r, Qr r -> snd r <= hi) ->
  okb t (insertsIntoSetImpl chk tv lt eqb mcb a e0 (length A) vs) (fun r => Qr r /\ aok (fst r) L') ->
  same (m_insertsIntoSetImpl hi chk tv lt eqb mcb a e0 (length A) vs) (insertsIntoSetImpl chk tv lt eqb cb a e0 (length A) vs) (fun r => capped (fst r)).
Proof.
  intros HQ H. pose proof (sim_okb (sim_insertsImpl2 chk tv lt eqb Inc Ev a e0 (length A) vs) H) as E. rewrite <- E.
  split; [|eapply okb_then; [exact H|]; intros r [_ H']; eapply aok_capped; [exact H'|apply after_thin]].
  clear E. revert H. unfold m_insertsIntoSetImpl, insertsIntoSetImpl.
  destruct (check_array chk a (length A)); cbn [bind]; auto. destruct (sizeOfArray chk a (length A)); cbn [bind]; auto.
  destruct (getSetValues chk a (length A)); cbn [bind]; auto.
  match goal with |- okb _ (bind ?m _) _ -> _ => destruct m as [[[b x] s]| |] end; cbn [bind]; auto.
  destruct (size_ (set_vals b (fst x)) (length A)) as [z| |] eqn:Ez; cbn [bind].
  2:{ intros [(r & H & _)|[_ H]]; discriminate. }
  2:{ intros [(r & H & _)|[_ H]]; [discriminate|]. exfalso. injection H as ->. clear -Ez. unfold size_, rd, aget in Ez.
      destruct (nth_error (szs (set_vals b (fst x))) (length A)) as [[]|]; discriminate. }
  intros H.
  assert (K : z + s <= hi /\ s <= hi); [|destruct K; rewrite (fit_ok (n := s)) by auto; cbn [bind]; rewrite fit_ok by auto; reflexivity].
  destruct H as [(r & H & Hq & H')|[_ H]].
  - destruct (put_size (set_vals b (fst x)) (length A) (z + s)) as [aa| |] eqn:E2; try discriminate. cbn [bind] in H. injection H as <-.
    cbn [fst] in H'. destruct H' as [I' _]. pose proof (row_size_ I') as S2. split; [|apply (HQ _ Hq)].
    unfold put_size in E2. destruct (assign true _ _ _) as [zs| |] eqn:E3; try discriminate. cbn [bind] in E2. injection E2 as <-.
    apply assign_same in E3. unfold size_ in S2. cbn [szs set_szs] in S2. rewrite E3 in S2. injection S2 as ->. apply after_len.
  - destruct (put_size (set_vals b (fst x)) (length A) (z + s)) eqn:E2; try discriminate. cbn [bind] in H. injection H as ->.
    exfalso. apply (put_size_move E2).
Qed.
Lemma e_remove a e0 v (Qr : aoa * bool -> Prop) :
  oks (removeFromSetImpl chk tv lt eqb mcb a e0 (length A) v) (fun r => Qr r /\ iok (fst r) L') ->
  same (removeFromSetImpl chk tv lt eqb mcb a e0 (length A) v) (removeFromSetImpl chk tv lt eqb cb a e0 (length A) v) (fun r => capped (fst r)).
Proof.
  intros H. assert (H2 : okb true (removeFromSetImpl chk tv lt eqb mcb a e0 (length A) v) (fun r => Qr r /\ iok (fst r) L')) by (left; exact H).
  pose proof (sim_okb (sim_removeImpl2 chk tv lt eqb Ev a e0 (length A) v) H2) as E. rewrite <- E.
  split; auto. eapply okb_then; [exact H2|]. intros r [_ H']. eapply capped_intro; [exact H'|apply after_thin].
Qed.
Lemma e_removes a e0 vs (Qr : aoa * nat -> Prop) : (forall r, Qr r -> snd r <= hi) ->
  oks (removesFromSetImpl chk tv lt eqb mcb a e0 (length A) vs) (fun r => Qr r /\ iok (fst r) L') ->
  same (m_removesFromSetImpl hi chk tv lt eqb mcb a e0 (length A) vs) (removesFromSetImpl chk tv lt eqb cb a e0 (length A) vs) (fun r => capped (fst r)).
Proof.
  intros HQ H. assert (H2 : okb true (removesFromSetImpl chk tv lt eqb mcb a e0 (length A) vs) (fun r => Qr r /\ iok (fst r) L')) by (left; exact H).
  pose proof (sim_okb (sim_removesImpl2 chk tv lt eqb Ev a e0 (length A) vs) H2) as E. rewrite <- E.
  split; [|eapply okb_then; [exact H2|]; intros r [_ H']; eapply capped_intro; [exact H'|apply after_thin]].
  clear E H2. destruct H as (r & H & Hq & _). revert H. unfold m_removesFromSetImpl, removesFromSetImpl.
  destruct (check_array chk a (length A)); cbn [bind]; auto. destruct (sizeOfArray chk a (length A)); cbn [bind]; auto.
  destruct (getSetValues chk a (length A)); cbn [bind]; auto.
  match goal with |- bind ?m _ = _ -> _ => destruct m as [[[b x] s]| |] end; cbn [bind]; auto.
  intros H. assert (s <= hi); [|rewrite fit_ok by auto; reflexivity].
  destruct (size_ (set_vals b (fst x)) (length A)); try discriminate. cbn [bind] in H. destruct (sub_ix _ s); try discriminate. cbn [bind] in H.
  destruct (put_size _ _ _); try discriminate. cbn [bind] in H. injection H as <-. apply (HQ _ Hq).
Qed.
End CB.

(** incrementSize *)
Lemma e_grow_inc (mnew : nat -> outcome nat) newCap a A es k B n e0 : aok a (A ++ (es, k) :: B) -> small (A ++ (es, k) :: B) -> length es + n <= Q ->
  (length es + k < length es + n -> mnew (length es + n) = Ok (newCap (length es + n)) /\ newCap (length es + n) <= Q) ->
  cb_inc (m_grow_cb V W hi chk tv tw dual kind mnew (length A)) n (vals a, (a, e0)) =
  cb_inc (grow_cb V W chk tv tw dual kind newCap (length A)) n (vals a, (a, e0)).
Proof.
  intros H S Hn Hc. pose proof H as [I _]. pose proof (small_Q S). cbn [cb_inc grow_cb m_grow_cb].
  assert (Ea : set_vals (vals a) a = a) by (destruct a; reflexivity). rewrite Ea. rewrite fit_ok by lia. cbn [bind].
  rewrite (row_size chk I). cbn [bind]. rewrite fit_ok by lia. cbn [bind]. destruct (e_cap H S) as [-> ->]. cbn [bind].
  destruct (Nat.ltb_spec (length es + k) (length es + n)); auto. destruct (Hc H1) as [-> Hq]. cbn [bind].
  destruct (e_setcap H S Hq) as [-> _]. reflexivity.
Qed.
End Bounded.
