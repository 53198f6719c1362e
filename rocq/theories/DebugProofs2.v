(** The same for ArrayOfArrays. *)
From Coq Require Import List Arith ZArith Lia Bool.
From Verif Require Import Base BaseProofs Mem MemProofs BufferManip Debug AoACapacity AoACapacityProofs DebugProofs AoA AoASpec AoALayout AoAProofs AoAProofs2 AoAProofs3 AoAProofs4.
From Verif Require ArrayManip.
Import ListNotations.
Set Implicit Arguments.
Unset Strict Implicit.

Section AoAD.
Variables V W : Type.
Variables dbg chk tv tw : bool.
Notation kind := BMalloc.
Notation aoa := (aoa V W).
Notation row := (list V * nat)%type.
Notation rows := (list row).
Variable fw : V -> W.
Variable dflt : V.
Notation idv := (fun v : V => v).
Notation aok := (@aok V V W idv fw tv tw false).
Notation arep := (@arep V W tv tw fw).
Implicit Types a : aoa.
Implicit Types L A B : rows.

Lemma imp_each (f f' : forall X : Type, bool -> buf X -> outcome (buf X)) a :
  imp (f V tv (vals a)) (f' V tv (vals a)) -> imp (each tv tw false f a) (each tv tw false f' a).
Proof. intros H. unfold each. apply imp_bind; [ exact H | intros; apply imp_refl ]. Qed.

Lemma g_destroyValues_i a i j : imp (destroyValues chk tv tw false a i j) (g_destroyValues dbg chk kind tv tw false a i j).
Proof.
  unfold destroyValues, g_destroyValues. do 2 same. apply imp_each. apply imp_up. intros k b. do 2 same. apply i_destroy.
Qed.
Lemma g_reserve_i a n : imp (aoa_reserve chk kind a n) (g_aoa_reserve dbg chk kind a n).
Proof. unfold aoa_reserve, g_aoa_reserve. apply imp_bind; [ apply i_reserve | ]. intros. apply imp_bind; [ apply i_reserve | intros; apply imp_refl ]. Qed.
Lemma g_reserveValues_i a n : imp (reserveValues chk tv tw false kind a n) (g_reserveValues dbg chk kind tv tw false a n).
Proof. unfold reserveValues, g_reserveValues. same. apply imp_each. apply i_reserve. Qed.
Lemma g_resizeFromCapacities_i a caps : imp (resizeFromCapacities chk tv tw false kind a caps) (g_resizeFromCapacities dbg chk kind tv tw false a caps).
Proof.
  unfold resizeFromCapacities, g_resizeFromCapacities. apply imp_bind; [ apply g_destroyValues_i | ]. intros.
  apply imp_bind; [ apply i_reserve | ]. intros. same. apply imp_bind; [ apply i_reserve | ]. intros. do 3 same.
  apply imp_each. apply i_reserve.
Qed.
Lemma g_resizeImpl_i a n c : imp (resizeImpl chk tv tw false kind a n c) (g_resizeImpl dbg chk kind tv tw false a n c).
Proof.
  unfold resizeImpl, g_resizeImpl. destruct (n <? numArrays a).
  - apply imp_bind; [ apply g_destroyValues_i | ]. intros. do 2 (apply imp_bind; [ apply i_bresize | ]; intros). apply imp_refl.
  - same. do 2 (apply imp_bind; [ apply i_bresize | ]; intros). apply imp_bind; [ | intros; apply imp_refl ].
    destruct (0 <? c); [ | apply imp_refl ]. do 3 same. apply imp_each. apply i_reserve.
Qed.
Lemma g_free_i a : imp (aoa_free chk tv tw false kind a) (g_aoa_free dbg chk kind tv tw false a).
Proof. unfold aoa_free, g_aoa_free. apply imp_bind; [ apply g_destroyValues_i | intros; apply imp_refl ]. Qed.
Lemma g_setCapacity_i a i c : imp (setCapacityOfArray chk tv tw false kind a i c) (g_setCapacityOfArray dbg chk kind tv tw false a i c).
Proof.
  unfold setCapacityOfArray, g_setCapacityOfArray. apply imp_same. intros _ _. apply imp_same. intros ac _.
  destruct (Nat.eqb_spec c ac) as [|N]; [ apply imp_refl | ]. destruct (Nat.ltb_spec ac c) as [L|L].
  - same. apply imp_bind; [ | intros; apply imp_refl ]. apply imp_each. apply imp_bind; [ apply i_dynamicReserve | ]. intros b1 _.
    apply imp_down. intros k b. do 2 same. apply i_uninitializedShiftUp. lia.
  - do 3 same. apply imp_bind; [ | intros; apply imp_refl ]. apply imp_each. apply imp_bind; [ apply i_destroy | ]. intros b1 _.
    apply imp_up. intros k b. do 2 same. apply i_uninitializedShiftDown. lia.
Qed.
Lemma g_grow_i a i n : imp (dynamicallyGrowArray chk tv tw false kind a i n) (g_dynamicallyGrowArray dbg chk kind tv tw false a i n).
Proof.
  unfold dynamicallyGrowArray, g_dynamicallyGrowArray. do 2 same.
  match goal with |- imp (if ?x then _ else _) _ => destruct x end; [ apply g_setCapacity_i | apply imp_refl ].
Qed.
Lemma g_push_i a : imp (push_array chk kind a) (g_push_array dbg chk kind a).
Proof. unfold push_array, g_push_array. same. do 2 (apply imp_bind; [ apply i_bemplaceBack | ]; intros). apply imp_refl. Qed.
Lemma g_open_i a i : imp (open_array chk kind a i) (g_open_array dbg chk kind a i).
Proof. unfold open_array, g_open_array. do 2 same. do 2 (apply imp_bind; [ apply i_bemplace | ]; intros). apply imp_refl. Qed.
Lemma g_eraseArray_i a i : imp (eraseArray chk tv tw false kind a i) (g_eraseArray dbg chk kind tv tw false a i).
Proof.
  unfold eraseArray, g_eraseArray. same. apply imp_bind; [ apply g_setCapacity_i | ]. intros.
  do 2 (apply imp_bind; [ apply i_berase | ]; intros). apply imp_refl.
Qed.
Lemma g_emplaceBack_i a i v : imp (aoa_emplaceBack chk tv tw false kind a i v) (g_aoa_emplaceBack dbg chk kind tv tw false a i v).
Proof.
  unfold aoa_emplaceBack, g_aoa_emplaceBack. apply imp_bind; [ apply g_grow_i | ]. intros a1 _.
  unfold v_emplaceBack, g_v_emplaceBack. do 4 same. apply imp_bind; [ apply i_emplaceBack | intros; apply imp_refl ].
Qed.
Lemma g_emplace_i a i j v : imp (aoa_emplace chk tv tw false kind a i j v) (g_aoa_emplace dbg chk kind tv tw false a i j v).
Proof.
  unfold aoa_emplace, g_aoa_emplace. apply imp_bind; [ apply g_grow_i | ]. intros a1 _.
  unfold v_emplace, g_v_emplace. do 4 same. apply imp_bind; [ apply i_emplace | intros; apply imp_refl ].
Qed.
Lemma g_eraseFrom_i a i j n : imp (eraseFromArray chk tv a i j n) (g_eraseFromArray dbg chk kind tv a i j n).
Proof. unfold eraseFromArray, g_eraseFromArray. do 3 same. apply imp_bind; [ apply i_erase | intros; apply imp_refl ]. Qed.

(** * Where the assertions need a valid array *)
Lemma okb_get X t (m : outcome X) Q x : okb t m Q -> m = Ok x -> Q x.
Proof. intros [(y & E & H)|[_ E]] F; [ rewrite E in F; injection F as <-; exact H | congruence ]. Qed.
Lemma oks_get X (m : outcome X) Q x : oks m Q -> m = Ok x -> Q x.
Proof. intros (y & E & H) F. rewrite E in F. injection F as <-. exact H. Qed.
Lemma row_total L i x : nth_error L i = Some x -> length (fst x) <= total L.
Proof. intros H. apply nth_error_split in H. destruct H as (A & B & -> & _). rewrite total_app. simpl. unfold wid. lia. Qed.
Lemma aok_there a L i x : aok a L -> nth_error L i = Some x -> 0 < length (fst x) -> 0 < length (vals a).
Proof. intros [_ [E _]] N P. apply row_total in N. apply lay_cap in E. lia. Qed.

Lemma shiftDown_keeps t (b : buf V) p n k : post (ArrayManip.uninitializedShiftDown t b p n k) (fun b' => length b' = length b).
Proof.
  unfold ArrayManip.uninitializedShiftDown. destruct (k =? 0); [ apply post_ok; reflexivity | ].
  apply (@up_len V). intros i b0. apply post_any. intros d. eapply post_bind; [ apply mconstruct_len | ]. intros b1 H1.
  eapply post_mono; [ apply destroy1_len | ]. simpl in *. intros b2 H2. congruence.
Qed.
Lemma g_compress_i a L : aok a L -> imp (compress chk tv tw false a) (g_compress dbg chk kind tv tw false a).
Proof.
  intros H. unfold compress, g_compress. destruct (Nat.eqb_spec (numArrays a) 0) as [|N]; [ apply imp_refl | ].
  apply imp_bind; [ | intros; apply imp_refl ].
  apply imp_up_inv with (P := fun a' => szs a' = szs a /\ numArrays a' = numArrays a /\ length (vals a') = length (vals a)).
  - intros i a0 (P1 & P2 & P3). do 6 step.
    eapply post_bind with (P := fun a' => szs a' = szs a /\ numArrays a' = numArrays a /\ length (vals a') = length (vals a)).
    + unfold each. eapply post_bind; [ apply shiftDown_keeps | ]. simpl. intros v Hv. apply post_ok. simpl. repeat split; congruence.
    + intros a1 (Q1 & Q2 & Q3). apply post_any. intros m. unfold put_offset. apply post_any. intros o. apply post_ok. simpl. auto.
  - auto.
  - intros j a0 J (P1 & P2 & P3). apply imp_same. intros no _. apply imp_same. intros o _. apply imp_same. intros s _.
    apply imp_same. intros d _. apply imp_same. intros sh _. apply imp_same. intros sn Sn.
    apply imp_bind; [ | intros; apply imp_refl ]. apply imp_each. apply i_uninitializedShiftDown. intros _ Ps.
    rewrite P3. pose proof H as [I _]. pose proof I as (NL & _ & _).
    destruct (nth_error L (j + 1)) as [x|] eqn:Ex; [ | apply nth_error_None in Ex; lia ].
    assert (sn = length (fst x)).
    { unfold sizeOfArray, check_array in Sn. destruct (check_if chk _) in Sn; try discriminate. cbn [bind] in Sn.
      unfold size_ in Sn. rewrite P1 in Sn. pose proof (@size_at _ _ _ _ _ _ _ I Ex) as Z. unfold size_ in Z. congruence. }
    apply (aok_there H Ex). lia.
Qed.
Lemma row_in L i x : nth_error L i = Some x -> exists A B, L = A ++ x :: B /\ length A = i.
Proof. intros H. apply nth_error_split in H. exact H. Qed.
Lemma g_append_i a A r k B vs : aok a (A ++ (r, k) :: B) ->
  imp (aoa_appendToArray chk tv tw false kind a (length A) vs) (g_aoa_appendToArray dbg chk kind tv tw false a (length A) vs).
Proof.
  intros H. unfold aoa_appendToArray, g_aoa_appendToArray. apply imp_bind; [ apply g_grow_i | ]. intros a1 E.
  pose proof (okb_get (grow_ok chk (length vs) H) E) as H1.
  unfold v_appendToArray, g_v_appendToArray. apply imp_same. intros _ _. apply imp_same. intros o _. apply imp_same. intros s Es.
  apply imp_bind; [ | intros; apply imp_refl ]. apply i_append. intros _ Ps. pose proof H1 as [I1 _].
  rewrite (row_size chk I1) in Es. injection Es as <-. exact (aok_there H1 (row_nth A _ B) Ps).
Qed.
Lemma g_resizeArray_i a A r k B n v : aok a (A ++ (r, k) :: B) ->
  imp (resizeArray chk tv tw false kind a (length A) n v) (g_resizeArray dbg chk kind tv tw false a (length A) n v).
Proof.
  intros H. unfold resizeArray, g_resizeArray. apply imp_same. intros _ _. apply imp_same. intros c _.
  apply imp_bind. { destruct (c <? n); [ apply g_setCapacity_i | apply imp_refl ]. }
  intros a1 E. assert (H1 : exists r' k', aok a1 (A ++ (r', k') :: B)).
  { destruct (c <? n); [ | injection E as <-; eauto ].
    pose proof (okb_get (setCapacity_ok chk n H eq_refl) E) as Q. cbv beta in Q. eexists _, _. exact Q. }
  destruct H1 as (r' & k' & H1). pose proof H1 as [I1 _].
  apply imp_same. intros s Es. rewrite (row_size chk I1) in Es. injection Es as <-. do 2 same.
  apply imp_bind; [ | intros; apply imp_refl ]. apply i_resize. intros _ Ps. exact (aok_there H1 (row_nth A _ B) Ps).
Qed.
Lemma g_insertInto_i a A r k B j vs : aok a (A ++ (r, k) :: B) -> (vs = [] -> 0 < length (vals a)) ->
  imp (aoa_insertIntoArray chk tv tw false kind a (length A) j vs) (g_aoa_insertIntoArray dbg chk kind tv tw false a (length A) j vs).
Proof.
  intros H Z. unfold aoa_insertIntoArray, g_aoa_insertIntoArray. apply imp_bind; [ apply g_grow_i | ]. intros a1 E.
  unfold v_insertIntoArray, g_v_insertIntoArray. do 4 same. apply imp_bind; [ | intros; apply imp_refl ].
  apply i_insert. intros ->. apply nn. pose proof H as [I _]. unfold dynamicallyGrowArray in E. rewrite (row_size chk I) in E. cbn [bind] in E.
  rewrite (capacityOf_at chk I (row_nth A (r, k) B)) in E. cbn [bind] in E. unfold wid in E. simpl in E.
  replace (length r + k <? length r + 0) with false in E by (symmetry; apply Nat.ltb_ge; lia). injection E as <-. auto.
Qed.

(** The call which asks for nothing: no values into an array of arrays without value capacity *)
Definition idle (c : acall V) (a : aoa) : Prop := exists i j, c = AInsertInto i j [] /\ valueCapacity a = 0.

Lemma g_step_i c a M K M' : arep a M K -> vec_step dflt c M = Some M' -> ~ idle c a ->
  imp (astep chk tv tw false kind dflt c a) (g_astep dbg chk kind tv tw false dflt c a).
Proof.
  intros (L & H & EM & EK) VS NI.
  assert (RW : forall X i (f : list V -> option X) (N : i < length L), exists A r k B, L = A ++ (r, k) :: B /\ i = length A).
  { intros X i f N. destruct (nth_error L i) as [[r k]|] eqn:E; [ | apply nth_error_None in E; lia ].
    destruct (row_in E) as (A & B & -> & <-). eauto 6. }
  assert (ON : forall i f, on_row M i f = Some M' -> i < length L).
  { intros i f E. unfold on_row in E. destruct (nth_error M i) eqn:F; [ | discriminate ].
    assert (i < length M) by (apply nth_error_Some; congruence). rewrite <- EM, map_length in *. assumption. }
  destruct c as [n cap|caps|n|n| |n|vs|i vs|i|i v|i vs|i j v|i j vs|i j n|i n v|i|i c|i j v]; simpl in *.
  - apply g_resizeImpl_i.
  - apply g_resizeFromCapacities_i.
  - apply g_reserve_i.
  - apply g_reserveValues_i.
  - apply (g_compress_i H).
  - unfold appendArray, g_appendArray. apply imp_bind; [ apply g_push_i | ]. intros a1 E.
    pose proof (oks_get (push_ok chk H) E) as H1. pose proof H1 as [(N1 & _ & _) _].
    rewrite app_length in N1. simpl in N1. replace (numArrays a1 - 1) with (length L) by lia. eapply g_resizeArray_i; exact H1.
  - unfold appendArrayFrom, g_appendArrayFrom. apply imp_bind; [ apply g_push_i | ]. intros a1 E.
    pose proof (oks_get (push_ok chk H) E) as H1. pose proof H1 as [(N1 & _ & _) _].
    rewrite app_length in N1. simpl in N1. replace (numArrays a1 - 1) with (length L) by lia. eapply g_append_i; exact H1.
  - unfold insertArray, g_insertArray. apply imp_bind; [ apply g_open_i | ]. intros a1 E.
    destruct (Nat.leb_spec i (length M)) as [Li|]; [ | discriminate ]. rewrite <- EM, map_length in Li.
    destruct (split_le Li) as (A & B & -> & <-).
    pose proof (oks_get (open_ok chk H eq_refl) E) as H1. eapply g_append_i; exact H1.
  - apply g_eraseArray_i.
  - apply g_emplaceBack_i.
  - destruct (RW V i (fun _ => None) (ON _ _ VS)) as (A & r & k & B & -> & ->). eapply g_append_i; exact H.
  - apply g_emplace_i.
  - destruct (RW V i (fun _ => None) (ON _ _ VS)) as (A & r & k & B & -> & ->). eapply g_insertInto_i; [ exact H | ].
    intros ->. destruct (Nat.eq_dec (length (vals a)) 0) as [Z|]; [ | lia ]. exfalso. apply NI. exists (length A), j. auto.
  - apply g_eraseFrom_i.
  - destruct (RW V i (fun _ => None) (ON _ _ VS)) as (A & r & k & B & -> & ->). eapply g_resizeArray_i; exact H.
  - destruct (RW V i (fun _ => None) (ON _ _ VS)) as (A & r & k & B & -> & ->). eapply g_resizeArray_i; exact H.
  - apply g_setCapacity_i.
  - apply imp_refl.
Qed.
End AoAD.
