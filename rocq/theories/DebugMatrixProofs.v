(** The assertions of a debug build in CRSMatrix. *)
From Coq Require Import List Arith ZArith Lia Bool Sorting.Sorted.
From Verif Require Import Base BaseProofs Mem MemProofs BufferManip Debug AoACapacityProofs DebugProofs Sorted SortedSpec SortedProofs SortedProofs2 SortedArraySpec
  AoA AoASpec AoALayout AoAProofs AoAProofs2 AoAProofs4 AoS AoSSpec SetsProofs SetsProofs2 AoSProofs Sparsity SparsitySpec SparsityProofs CRS CRSSpec CRSProofs CRSProofs2
  DebugSorted DebugSortedProofs DebugSets DebugSparsity DebugSparsityProofs DebugCRS DebugMatrix.
From Verif Require DebugProofs2 ArrayManip.
Import ListNotations.
Set Implicit Arguments.
Unset Strict Implicit.

(** * ArrayOfArraysView with the further buffer *)
Section Dual.
Variables P V W : Type.
Variable fv : P -> V.
Variable fw : P -> W.
Variables dbg chk tv tw : bool.
Notation kind := BMalloc.
Notation aok := (@aok P V W fv fw tv tw true).
Implicit Types a : aoa V W.
Lemma imp_each2 (f f' : forall X : Type, bool -> buf X -> outcome (buf X)) a :
  imp (f V tv (vals a)) (f' V tv (vals a)) -> imp (f W tw (ents a)) (f' W tw (ents a)) -> imp (each tv tw true f a) (each tv tw true f' a).
Proof. intros H H'. unfold each. apply imp_bind; [ exact H | ]. intros. apply imp_bind; [ exact H' | intros; apply imp_refl ]. Qed.
Lemma g_destroyValues_2 a i j : imp (destroyValues chk tv tw true a i j) (g_destroyValues dbg chk kind tv tw true a i j).
Proof. unfold destroyValues, g_destroyValues. do 2 same. apply imp_each2; apply imp_up; intros k b; do 2 same; apply i_destroy. Qed.
Lemma g_reserveValues_2 a n : imp (reserveValues chk tv tw true kind a n) (g_reserveValues dbg chk kind tv tw true a n).
Proof. unfold reserveValues, g_reserveValues. same. apply imp_each2; apply i_reserve. Qed.
Lemma g_resizeFromCapacities_2 a caps : imp (resizeFromCapacities chk tv tw true kind a caps) (g_resizeFromCapacities dbg chk kind tv tw true a caps).
Proof.
  unfold resizeFromCapacities, g_resizeFromCapacities. apply imp_bind; [ apply g_destroyValues_2 | ]. intros.
  apply imp_bind; [ apply i_reserve | ]. intros. same. apply imp_bind; [ apply i_reserve | ]. intros. do 3 same.
  apply imp_each2; apply i_reserve.
Qed.
Lemma g_resizeImpl_2 a n c : imp (resizeImpl chk tv tw true kind a n c) (g_resizeImpl dbg chk kind tv tw true a n c).
Proof.
  unfold resizeImpl, g_resizeImpl. destruct (n <? numArrays a).
  - apply imp_bind; [ apply g_destroyValues_2 | ]. intros. do 2 (apply imp_bind; [ apply i_bresize | ]; intros). apply imp_refl.
  - same. do 2 (apply imp_bind; [ apply i_bresize | ]; intros). apply imp_bind; [ | intros; apply imp_refl ].
    destruct (0 <? c); [ | apply imp_refl ]. do 3 same. apply imp_each2; apply i_reserve.
Qed.
Lemma g_free_2 a : imp (aoa_free chk tv tw true kind a) (g_aoa_free dbg chk kind tv tw true a).
Proof. unfold aoa_free, g_aoa_free. apply imp_bind; [ apply g_destroyValues_2 | intros; apply imp_refl ]. Qed.
Lemma g_setCapacity_2 a i c : imp (setCapacityOfArray chk tv tw true kind a i c) (g_setCapacityOfArray dbg chk kind tv tw true a i c).
Proof.
  unfold setCapacityOfArray, g_setCapacityOfArray. apply imp_same. intros _ _. apply imp_same. intros ac _.
  destruct (Nat.eqb_spec c ac) as [|N]; [ apply imp_refl | ]. destruct (Nat.ltb_spec ac c) as [L|L].
  - same. apply imp_bind; [ | intros; apply imp_refl ].
    apply imp_each2; (apply imp_bind; [ apply i_dynamicReserve | ]; intros b1 _; apply imp_down; intros k b; do 2 same; apply i_uninitializedShiftUp; lia).
  - do 3 same. apply imp_bind; [ | intros; apply imp_refl ].
    apply imp_each2; (apply imp_bind; [ apply i_destroy | ]; intros b1 _; apply imp_up; intros k b; do 2 same; apply i_uninitializedShiftDown; lia).
Qed.
Lemma there_2 a L i x : aok a L -> nth_error L i = Some x -> 0 < length (fst x) -> 0 < length (vals a) /\ 0 < length (ents a).
Proof.
  intros [_ [E E']] N Q. apply nth_error_split in N. destruct N as (A & B & -> & _). specialize (E' eq_refl).
  apply lay_cap in E. apply lay_cap in E'. rewrite total_app in *. simpl in *. unfold wid in *. lia.
Qed.
Lemma g_compress_2 a L : aok a L -> imp (compress chk tv tw true a) (g_compress dbg chk kind tv tw true a).
Proof.
  intros H. unfold compress, g_compress. destruct (Nat.eqb_spec (numArrays a) 0) as [|N]; [ apply imp_refl | ].
  apply imp_bind; [ | intros; apply imp_refl ].
  set (Q := fun a' => szs a' = szs a /\ numArrays a' = numArrays a /\ length (vals a') = length (vals a) /\ length (ents a') = length (ents a)).
  apply imp_up_inv with (P := Q).
  - intros i a0 (P1 & P2 & P3 & P4). do 6 step.
    eapply post_bind with (P := Q).
    + unfold each. eapply post_bind; [ apply DebugProofs2.shiftDown_keeps | ]. simpl. intros v Hv.
      eapply post_bind; [ apply DebugProofs2.shiftDown_keeps | ]. simpl. intros w Hw. apply post_ok. unfold Q. simpl. repeat split; congruence.
    + intros a1 (Q1 & Q2 & Q3 & Q4). apply post_any. intros m. unfold put_offset. apply post_any. intros o. apply post_ok. unfold Q. simpl. auto.
  - unfold Q. auto.
  - intros j a0 J (P1 & P2 & P3 & P4). apply imp_same. intros no _. apply imp_same. intros o _. apply imp_same. intros s _.
    apply imp_same. intros d _. apply imp_same. intros sh _. apply imp_same. intros sn Sn.
    apply imp_bind; [ | intros; apply imp_refl ]. pose proof H as [I _]. pose proof I as (NL & _ & _).
    destruct (nth_error L (j + 1)) as [x|] eqn:Ex; [ | apply nth_error_None in Ex; lia ].
    assert (sn = length (fst x)).
    { unfold sizeOfArray, check_array in Sn. destruct (check_if chk _) in Sn; try discriminate. cbn [bind] in Sn.
      unfold size_ in Sn. rewrite P1 in Sn. pose proof (@size_at _ _ _ _ _ _ _ I Ex) as Z. unfold size_ in Z. congruence. }
    apply imp_each2; apply i_uninitializedShiftDown; intros _ Ps; rewrite ?P3, ?P4; apply (@there_2 a L (j + 1) x H Ex); lia.
Qed.
End Dual.

Section D.
Variable W : Type.
Variables dbg chk tw : bool.
Variable cmax : Z.
Variable add : W -> W -> W.
Variable zero : W.
Notation kind := BMalloc.
Notation aoa := (aoa Z W).
Notation X := (aoa * nat)%type.
Notation fv := (@fst Z W).
Notation fw := (@snd Z W).
Notation aok := (@aok (Z * W) Z W fv fw true tw true).
Notation mrep := (@mrep W tw).
Notation incr l := (StronglySorted (fun x y => (x <? y)%Z = true) l).
Implicit Types p : pattern W.
Implicit Types a : aoa.

(** * The notifications *)
Definition stocked (x : X) : Prop := 0 < length (ents (fst x)).
Lemma ev_imp nnz ws e x : match e with ERemoveN n pos _ => n <= pos + 1 /\ stocked x | _ => True end ->
  imp (crs_ev chk tw nnz ws e x) (d_crs_ev dbg chk tw kind nnz ws e x).
Proof.
  destruct x as [a e0]. unfold stocked. cbn [fst]. intros C. unfold crs_ev, d_crs_ev. apply imp_bind; [ | intros; apply imp_refl ].
  destruct e as [pos cp|pos|n cp pos pv|pos|n pos np]; cbn [entry_event d_entry_event].
  - apply imp_refl.
  - same. apply i_emplace.
  - intros r E. assert (Pos : 0 < length (ents a)).
    { destruct (ArrayManip.shiftUp chk tw (ents a) e0 pv pos n) as [b1| |] eqn:E1; try discriminate. cbn [bind] in E.
      apply (@shiftUp_len W chk tw) in E1. destruct (aget ws cp); try discriminate. cbn [bind] in E.
      destruct (sub_ix _ 1); try discriminate. cbn [bind] in E. apply place_pos in E. congruence. }
    revert r E. apply imp_bind; [ apply i_shiftUp; intros _; exact Pos | intros; apply imp_refl ].
  - apply i_erase.
  - apply i_shiftDown; [ intros _; apply C | apply C ].
Qed.
Lemma ev_stocked nnz ws e x x' : stocked x -> crs_ev chk tw nnz ws e x = Ok x' -> stocked x'.
Proof.
  destruct x as [a e0]. unfold stocked. cbn [fst]. intros Pos. unfold crs_ev.
  destruct (entry_event chk tw nnz ws e (ents a) e0) as [b| |] eqn:E; try discriminate. cbn [bind]. intros F. injection F as <-. cbn.
  assert (K : post (entry_event chk tw nnz ws e (ents a) e0) (fun b1 => length b1 = length (ents a))).
  { destruct e as [pos cp|pos|n cp pos pv|pos|n pos np]; cbn [entry_event].
    - apply post_any. intros w. apply AoACapacityProofs.construct_len.
    - apply post_any. intros w. apply am_emplace_len.
    - eapply post_bind; [ apply AoACapacityProofs.shiftUp_len | ]. intros b1 H1. apply post_any. intros w. apply post_any. intros d.
      eapply post_mono; [ apply AoACapacityProofs.construct_len | ]. simpl in *. intros b2 H2. congruence.
    - apply am_erase_len.
    - apply AoACapacityProofs.shiftDown_len. }
  apply K in E. lia.
Qed.

(** * The rows *)
Lemma dual_view a A r k B : aok a (A ++ (r, k) :: B) -> view (vals a) (length (flat fv A)) (map fst r).
Proof.
  intros [_ [Lv _]]. destruct (lay_row Lv) as [q Mm]. intros j x J. eapply MemProofs.rd_nth; [ exact Mm | ].
  rewrite nth_error_app2 by lia. rewrite Nat.add_comm, Nat.add_sub.
  rewrite nth_error_app1 by (rewrite map_length; apply nth_error_Some; rewrite J; discriminate). rewrite nth_error_map, J. reflexivity.
Qed.
Lemma mseen p M nc i S : mrep p (M, nc) -> nth_error M i = Some S ->
  exists A r k B, aok (rows p) (A ++ (r, k) :: B) /\ length A = i /\ incr (map fst r) /\ length r <= ncols p /\
    check_array chk (rows p) i = Ok tt /\ sizeOfArray chk (rows p) i = Ok (length (map fst r)) /\ numNonZeros chk p i = Ok (length r) /\
    nonZeroCapacity chk p i = Ok (length r + k) /\ getSetValues chk (rows p) i = Ok (length (flat fv A)) /\
    getEntries chk (rows p) i = Ok (length (flat fv A)) /\ view (vals (rows p)) (length (flat fv A)) (map fst r).
Proof.
  intros ((L & H & F) & E & G) N. cbn [fst snd] in *. destruct (f2_at F N) as (A & r & k & B & -> & <- & R & _). exists A, r, k, B.
  pose proof H as [I _]. split; [ exact H | ]. split; [ reflexivity | ].
  split; [ apply (map_key_incr Z.ltb fst); apply R | ]. split; [ rewrite E; exact (row_le R (mranged_at G N)) | ].
  split; [ exact (row_check chk I) | ]. split; [ rewrite map_length; exact (row_size chk I) | ]. split; [ exact (row_size chk I) | ].
  split; [ exact (row_capacity chk I) | ]. split; [ exact (row_values fv chk I) | ]. split; [ exact (row_entries chk I) | exact (dual_view H) ].
Qed.
(** After incrementSize the columns are at the new pointer, whatever the number asked for. *)
Lemma crs_grow_any p A r k B n ws e b1 x1 q : aok (rows p) (A ++ (r, k) :: B) -> length r <= ncols p ->
  cb_inc (crs_cb chk tw kind p (length A) (length r) (length r + k) ws) n (vals (rows p), (rows p, e)) = Ok (b1, x1, q) -> view b1 q (map fst r).
Proof.
  intros H Fit E. cbn [cb_inc crs_cb] in E. replace (set_vals (vals (rows p)) (rows p)) with (rows p) in E by (destruct (rows p); reflexivity).
  assert (G : forall a' k', aok a' (A ++ (r, k') :: B) ->
    (e' <- getEntries chk a' (length A) ;; c <- getSetValues chk a' (length A) ;; Ok (vals a', (a', e'), c)) = Ok (b1, x1, q) -> view b1 q (map fst r)).
  { intros a' k' H' E'. pose proof H' as [I' _]. rewrite (row_entries chk I') in E'. cbn [bind] in E'. rewrite (row_values fv chk I') in E'. cbn [bind] in E'.
    injection E' as <- <- <-. exact (dual_view H'). }
  destruct (Nat.ltb_spec (length r + k) (length r + n)) as [L|L].
  - destruct (setCapacityOfArray chk true tw true kind (rows p) (length A) (clamp p (2 * (length r + n)))) as [a'| |] eqn:Ec; try discriminate. cbn [bind] in E.
    pose proof (@setCapacity_ok (Z * W) Z W fv fw chk true tw true (rows p) A r k B (length A) (clamp p (2 * (length r + n))) H eq_refl) as S.
    apply (DebugProofs2.okb_get S) in Ec. cbv beta in Ec.
    rewrite firstn_all2 in Ec by (unfold clamp; destruct (ncols p <? 2 * (length r + n)); lia). exact (G a' _ Ec E).
  - cbn [bind] in E. exact (G (rows p) k H E).
Qed.
Lemma crs_view_any a A r k B nnz cap n ws e b1 x1 q : aok a (A ++ (r, k) :: B) ->
  cb_inc (crs_view_cb chk tw (length A) nnz cap ws) n (vals a, (a, e)) = Ok (b1, x1, q) -> view b1 q (map fst r).
Proof.
  intros H E. pose proof H as [I _]. cbn [cb_inc crs_view_cb] in E. replace (set_vals (vals a) a) with a in E by (destruct a; reflexivity).
  destruct (check_if chk _) in E; try discriminate. cbn [bind] in E. rewrite (row_values fv chk I) in E. cbn [bind] in E.
  injection E as <- <- <-. exact (dual_view H).
Qed.
Lemma crs_inc_imp p row nnz cap ws n st : imp (cb_inc (crs_cb chk tw kind p row nnz cap ws) n st) (cb_inc (d_crs_cb dbg chk tw kind p row nnz cap ws) n st).
Proof.
  destruct st as [b [x e]]. cbn [cb_inc crs_cb d_crs_cb]. apply imp_bind; [ | intros; apply imp_refl ].
  destruct (cap <? nnz + n); [ apply g_setCapacity_2 | apply imp_refl ].
Qed.
Ltac rowof PR N := destruct (mseen PR N) as (A & r & k & B & H & <- & I & Fit & E1 & E2 & E3 & E4 & E5 & E6 & Vw).

Lemma d_crs_insertNonZero_imp p M nc i S v w : mrep p (M, nc) -> nth_error M i = Some S ->
  imp (crs_insertNonZero chk tw kind p i v w) (d_crs_insertNonZero dbg chk tw kind p i v w).
Proof.
  intros PR N. rowof PR N. unfold crs_insertNonZero, d_crs_insertNonZero. rewrite E3, E4. cbn [bind]. apply with_imp.
  unfold insertIntoSetImpl, d_insertIntoSetImpl. rewrite E1, E2, E5. cbn [bind]. apply imp_bind; [ | intros; apply imp_refl ].
  apply (@e_sinsert Z dbg chk true kind Z.ltb Z.eqb zorder X _ _ stocked); auto; [ intros; apply ev_imp; assumption | intros; apply crs_inc_imp ].
Qed.
Lemma d_crs_insertNonZeros_imp p M nc i S vs ws : mrep p (M, nc) -> nth_error M i = Some S -> increasing Z.ltb vs ->
  imp (crs_insertNonZeros chk tw kind p i vs ws) (d_crs_insertNonZeros dbg chk tw kind p i vs ws).
Proof.
  intros PR N Iv. rowof PR N. unfold crs_insertNonZeros, d_crs_insertNonZeros. rewrite E3, E4. cbn [bind]. apply with_imp.
  unfold insertsIntoSetImpl, d_insertsIntoSetImpl. rewrite E1, E2, E5. cbn [bind]. apply imp_bind; [ | intros; apply imp_refl ].
  apply (@e_inserts Z dbg chk true kind Z.ltb Z.eqb zorder X _ _ stocked); auto;
    [ intros; apply ev_imp; assumption | apply increasing_strong; exact Iv | intros; apply crs_inc_imp | ].
  intros n b1 x1 q Eq. exact (crs_grow_any H Fit Eq).
Qed.
Lemma d_crs_v_insertNonZero_imp p M nc i S v w : mrep p (M, nc) -> nth_error M i = Some S ->
  imp (crs_v_insertNonZero chk tw p i v w) (d_crs_v_insertNonZero dbg chk tw kind p i v w).
Proof.
  intros PR N. rowof PR N. unfold crs_v_insertNonZero, d_crs_v_insertNonZero. rewrite E3, E4, E6. cbn [bind]. apply with_imp.
  unfold insertIntoSetImpl, d_insertIntoSetImpl. rewrite E1, E2, E5. cbn [bind]. apply imp_bind; [ | intros; apply imp_refl ].
  apply (@e_sinsert Z dbg chk true kind Z.ltb Z.eqb zorder X _ _ stocked); auto; [ intros; apply ev_imp; assumption | intros; apply imp_refl ].
Qed.
Lemma d_crs_v_insertNonZeros_imp p M nc i S vs ws : mrep p (M, nc) -> nth_error M i = Some S -> increasing Z.ltb vs ->
  imp (crs_v_insertNonZeros chk tw p i vs ws) (d_crs_v_insertNonZeros dbg chk tw kind p i vs ws).
Proof.
  intros PR N Iv. rowof PR N. unfold crs_v_insertNonZeros, d_crs_v_insertNonZeros. rewrite E3, E4, E6. cbn [bind]. apply with_imp.
  unfold insertsIntoSetImpl, d_insertsIntoSetImpl. rewrite E1, E2, E5. cbn [bind]. apply imp_bind; [ | intros; apply imp_refl ].
  apply (@e_inserts Z dbg chk true kind Z.ltb Z.eqb zorder X _ _ stocked); auto;
    [ intros; apply ev_imp; assumption | apply increasing_strong; exact Iv | intros; apply imp_refl | ].
  intros n b1 x1 q Eq. exact (crs_view_any H Eq).
Qed.
Lemma d_crs_removeNonZero_imp p M nc i S v : mrep p (M, nc) -> nth_error M i = Some S ->
  imp (crs_removeNonZero chk tw p i v) (d_crs_removeNonZero dbg chk tw kind p i v).
Proof.
  intros PR N. rowof PR N. unfold crs_removeNonZero, d_crs_removeNonZero. rewrite E3, E4, E6. cbn [bind]. apply with_imp.
  unfold removeFromSetImpl, d_removeFromSetImpl. rewrite E1, E2, E5. cbn [bind]. apply imp_bind; [ | intros; apply imp_refl ].
  apply (@e_sremove Z dbg chk true kind Z.ltb Z.eqb zorder X _ _ stocked); auto. intros; apply ev_imp; assumption.
Qed.
Lemma d_crs_removeNonZeros_imp p M nc i S vs : mrep p (M, nc) -> nth_error M i = Some S -> increasing Z.ltb vs ->
  imp (crs_removeNonZeros chk tw p i vs) (d_crs_removeNonZeros dbg chk tw kind p i vs).
Proof.
  intros PR N Iv. rowof PR N. unfold crs_removeNonZeros, d_crs_removeNonZeros. rewrite E3, E4, E6. cbn [bind]. apply imp_bind.
  - unfold removesFromSetImpl, d_removesFromSetImpl. rewrite E1, E2, E5. cbn [bind]. apply imp_bind; [ | intros; apply imp_refl ].
    apply (@e_removes Z dbg chk true kind Z.ltb Z.eqb zorder X _ _ stocked); auto;
      [ intros; apply ev_imp; assumption | intros e x x' Hs He; exact (ev_stocked Hs He) | apply increasing_strong; exact Iv | ].
    intros Ne. unfold stocked. cbn [fst]. apply (@there_2 (Z * W) Z W fv fw true tw (rows p) _ (length A) (r, k) H); [ apply row_nth | ].
    cbn [fst]. destruct r; [ destruct Ne; reflexivity | simpl; lia ].
  - intros [a n] _. same. apply imp_bind; [ apply i_destroy | intros; apply imp_refl ].
Qed.
Lemma d_dtor_imp p : imp (crs_dtor chk tw kind p) (d_crs_dtor dbg chk tw kind p).
Proof. unfold crs_dtor, d_crs_dtor. apply imp_bind; [ apply g_free_2 | intros; apply imp_refl ]. Qed.
(** In assimilate no assertion depends on the state. *)
Lemma d_assimilate_imp (d : W) (this src : pattern W) : imp (crs_assimilate chk tw kind d this src) (d_crs_assimilate dbg chk tw kind d this src).
Proof.
  unfold crs_assimilate, d_crs_assimilate. apply imp_bind.
  { destruct tw; [ apply imp_refl | ]. unfold each_row. apply imp_up. intros i a. unfold destroy_row, d_destroy_row. do 2 same.
    apply imp_bind; [ apply i_destroy | intros; apply imp_refl ]. }
  intros a _. apply imp_bind; [ apply i_reserve | ]. intros e _. apply imp_bind; [ apply DebugProofs2.g_free_i | intros; apply imp_refl ].
Qed.
End D.

(** * What a debug build with bounds checks finds *)
Section Bad.
Variable W : Type.
Variable tw : bool.
Notation kind := BMalloc.
Notation mrep := (@mrep W tw).
Implicit Types p : pattern W.
Lemma no_row p M nc i : mrep p (M, nc) -> nth_error M i = None -> check_array true (rows p) i = Abort.
Proof. intros (R & _) N. exact (bad_check eq_refl R N). Qed.
Lemma crs_unsorted_inserts p M nc i vs ws : mrep p (M, nc) -> ~ increasing Z.ltb vs -> d_crs_insertNonZeros true true tw kind p i vs ws = Abort.
Proof.
  intros R N. unfold d_crs_insertNonZeros. destruct (nth_error M i) as [S|] eqn:Ni.
  - destruct (@mseen W true tw p M nc i S R Ni) as (A & r & k & B & H & <- & I & Fit & E1 & E2 & E3 & E4 & E5 & E6 & Vw). rewrite E3, E4. cbn [bind].
    unfold with_rows, d_insertsIntoSetImpl. rewrite E1, E2, E5. cbn [bind]. unfold d_inserts.
    rewrite (@ptr_ok Z true kind _ _ _ Vw). cbn [bind]. rewrite (@range_ok Z true _ _ _ _ Vw (unique_incr zorder I)). cbn [bind].
    rewrite (not_unique N). reflexivity.
  - unfold numNonZeros, sizeOfArray. rewrite (no_row R Ni). reflexivity.
Qed.
Lemma crs_unsorted_removes p M nc i vs : mrep p (M, nc) -> ~ increasing Z.ltb vs -> d_crs_removeNonZeros true true tw kind p i vs = Abort.
Proof.
  intros R N. unfold d_crs_removeNonZeros. destruct (nth_error M i) as [S|] eqn:Ni.
  - destruct (@mseen W true tw p M nc i S R Ni) as (A & r & k & B & H & <- & I & Fit & E1 & E2 & E3 & E4 & E5 & E6 & Vw). rewrite E6, E3, E4. cbn [bind].
    unfold d_removesFromSetImpl. rewrite E1, E2, E5. cbn [bind]. unfold d_removes.
    rewrite (@ptr_ok Z true kind _ _ _ Vw). cbn [bind]. rewrite (@range_ok Z true _ _ _ _ Vw (unique_incr zorder I)). cbn [bind].
    rewrite (not_unique N). reflexivity.
  - unfold getEntries. rewrite (no_row R Ni). reflexivity.
Qed.
End Bad.
