(** C92: CRSMatrix in a debug build. *)
From Coq Require Import List Arith ZArith Lia Bool.
From Verif Require Import Base BaseProofs Mem BufferManip SortedSpec SortedArraySpec Debug AoA AoASpec AoS AoSSpec Sparsity SparsitySpec CRS CRSSpec PropCRS
  DebugSorted DebugSets DebugSparsity DebugCRS DebugMatrix.
From Verif Require SortedProofs SetsProofs2 SparsityProofs CRSProofs2 CRSProofs4 DebugProofs DebugProofs2 DebugSortedProofs DebugSparsityProofs DebugCRSProofs DebugMatrixProofs
  PropDebugCRS Sorted.
Import ListNotations.
Set Implicit Arguments.

Section Matrix.
Variable W : Type.
Variable add : W -> W -> W.
Variable zero : W.
Variable cmax : Z.
Notation mrep tw := (@CRSProofs2.mrep W tw).
Notation imp := DebugProofs.imp.

(** CRSMatrix< T, COL_TYPE > m( nr, nc, cap ), then the calls of [h], in a debug build. [tw]: T is trivial. *)
Definition d_cdriven (dbg chk tw : bool) (nr nc cap : nat) (h : list (ccall W)) : outcome (pattern W) :=
  p <- d_new_sp W dbg chk tw true BMalloc cmax nr nc cap ;; d_crun dbg chk tw BMalloc cmax add zero h p.

Lemma resize_imp dbg chk tw (p : pattern W) nr nc cap :
  imp (sp_resize chk tw true BMalloc cmax p nr nc cap) (d_sp_resize dbg chk tw true BMalloc cmax p nr nc cap).
Proof.
  unfold sp_resize, d_sp_resize. apply DebugProofs.imp_same. intros _ _.
  apply DebugProofs.imp_bind; [ apply DebugMatrixProofs.g_resizeImpl_2 | intros; apply DebugProofs.imp_refl ].
Qed.
Lemma add_ok dbg chk tw (p : pattern W) M nc i S adds : mrep tw p (M, nc) -> nth_error M i = Some S -> increasing Z.ltb (map fst adds) ->
  (forall c, In c (map fst adds) -> has S c) -> d_addToRow dbg chk tw BMalloc add p i adds = addToRow chk tw add p i adds.
Proof.
  intros R N I H. destruct dbg; [ | apply DebugCRSProofs.off_row ]. unfold d_addToRow, addToRow.
  destruct (numNonZeros chk p i) as [n| |]; [ | reflexivity | reflexivity ]. cbn [bind]. destruct (_ && _)%bool.
  - exact (@PropDebugCRS.binary_ok W chk tw add p M nc i S R N adds I H).
  - exact (@PropDebugCRS.linear_ok W chk tw add p M nc i S R N adds I H).
Qed.
Lemma addu_ok dbg chk tw (p : pattern W) M nc i S adds : mrep tw p (M, nc) -> nth_error M i = Some S ->
  (forall c, In c (map fst adds) -> has S c) -> d_addUnsorted dbg chk tw BMalloc add p i adds = addUnsorted chk tw add p i adds.
Proof.
  intros R N H. destruct dbg; [ | apply DebugCRSProofs.off_unsorted ]. exact (@PropDebugCRS.unsorted_ok W chk tw add p M nc i S R N adds H).
Qed.
Lemma on_one (M : list (row_map W)) i f (M' : list (row_map W)) (nc st : nat) :
  match on_elem M i f with Some M' => Some (M', nc) | None => None end = Some (M', st) -> exists S, nth_error M i = Some S.
Proof. unfold on_elem. destruct (nth_error M i); [ eauto | discriminate ]. Qed.
Lemma d_cstep_imp dbg chk tw c (p : pattern W) st st' : mrep tw p st -> callowed tw c st -> mat_step add zero cmax c st = Some st' ->
  imp (cstep chk tw BMalloc cmax add zero c p) (d_cstep dbg chk tw BMalloc cmax add zero c p).
Proof.
  destruct st as [M nc]. destruct st' as [M' nc']. intros PR Al St. pose proof PR as (R & E & G). cbn [fst snd] in *.
  destruct c as [nr nc1 cap|nc1 caps|n|i n|i c| |i v w|i vs|i v|i vs|v| |i adds|i adds]; cbn [cstep d_cstep]; cbn [mat_step] in St; cbn [callowed fst snd] in Al.
  - apply DebugSparsityProofs.quiet_imp. apply resize_imp.
  - apply DebugSparsityProofs.quiet_imp. unfold sp_resizeFromRowCapacities, d_sp_resizeFromRowCapacities. apply DebugProofs.imp_same. intros _ _.
    apply DebugProofs.imp_bind; [ apply DebugMatrixProofs.g_resizeFromCapacities_2 | intros; apply DebugProofs.imp_refl ].
  - apply DebugSparsityProofs.quiet_imp, DebugSparsityProofs.rows_imp, DebugMatrixProofs.g_reserveValues_2.
  - apply DebugSparsityProofs.quiet_imp. unfold reserveRow, d_reserveRow. apply DebugProofs.imp_same. intros c _.
    destruct (n <=? c); [ apply DebugProofs.imp_refl | ]. apply DebugSparsityProofs.rows_imp, DebugMatrixProofs.g_setCapacity_2.
  - apply DebugSparsityProofs.quiet_imp, DebugSparsityProofs.rows_imp, DebugMatrixProofs.g_setCapacity_2.
  - destruct R as (L & H & _). apply DebugSparsityProofs.quiet_imp, DebugSparsityProofs.rows_imp. eapply DebugMatrixProofs.g_compress_2; exact H.
  - destruct (on_one _ _ _ _ St) as [S N]. apply DebugProofs.imp_bind; [ exact (@DebugMatrixProofs.d_crs_insertNonZero_imp W dbg chk tw p M nc i S v w PR N) | intros; apply DebugProofs.imp_refl ].
  - destruct (on_one _ _ _ _ St) as [S N]. destruct Al as [Iv _]. exact (@DebugMatrixProofs.d_crs_insertNonZeros_imp W dbg chk tw p M nc i S (map fst vs) (map snd vs) PR N Iv).
  - destruct (on_one _ _ _ _ St) as [S N]. apply DebugProofs.imp_bind; [ exact (@DebugMatrixProofs.d_crs_removeNonZero_imp W dbg chk tw p M nc i S v PR N) | intros; apply DebugProofs.imp_refl ].
  - destruct (on_one _ _ _ _ St) as [S N]. exact (@DebugMatrixProofs.d_crs_removeNonZeros_imp W dbg chk tw p M nc i S vs PR N Al).
  - apply DebugProofs.imp_refl.
  - apply DebugProofs.imp_refl.
  - destruct (on_one _ _ _ _ St) as [S N]. destruct Al as [Iv Hs]. rewrite (@add_ok dbg chk tw p M nc i S adds PR N Iv); [ apply DebugProofs.imp_refl | ]. intros c. apply Hs. exact N.
  - destruct (on_one _ _ _ _ St) as [S N]. rewrite (@addu_ok dbg chk tw p M nc i S adds PR N); [ apply DebugProofs.imp_refl | ]. intros c. apply Al. exact N.
Qed.
Lemma d_crun_imp dbg chk tw h : forall (p : pattern W) st st', mrep tw p st -> cvalid add zero tw cmax h st -> mat_run add zero cmax h st = Some st' ->
  imp (crun chk tw BMalloc cmax add zero h p) (d_crun dbg chk tw BMalloc cmax add zero h p).
Proof.
  induction h as [|c h IH]; intros p st st' R V St; [ apply DebugProofs.imp_refl | ]. destruct V as [Ac V]. cbn [crun d_crun mat_run] in *.
  pose proof (@CRSProofs4.cstep_ok W chk tw add zero cmax c p st R Ac) as Ok1.
  destruct (mat_step add zero cmax c st) as [st1|] eqn:E; [ | discriminate ].
  apply DebugProofs.imp_bind; [ exact (d_cstep_imp dbg chk c R Ac E) | ]. intros [p1 r] E1.
  destruct (DebugProofs2.okb_get Ok1 E1) as [R1 _]. exact (IH p1 st1 st' R1 V St).
Qed.
Lemma d_cnew_ok dbg chk tw nr nc cap : (Z.of_nat nc - 1 <= cmax)%Z ->
  exists p, new_sp W chk tw true BMalloc cmax nr nc cap = Ok p /\ d_new_sp W dbg chk tw true BMalloc cmax nr nc cap = Ok p /\ mrep tw p (repeat none nr, nc).
Proof.
  intros C. destruct (@CRSProofs4.new_mrep W chk tw cmax nr nc cap) as (p & E & R); [apply Z.ltb_ge; auto|].
  exists p. split; [ exact E | ]. split; [ | exact R ]. revert E. unfold new_sp, d_new_sp. intros E. exact (@resize_imp dbg chk tw _ nr nc cap p E).
Qed.

(** What is left to the caller with assertions and bounds checks: inserted columns are within range, a resize does not cut off columns
    in use, and addToRow is given columns of the row (C89). Rows, ranges and the columns of the other calls are arbitrary. *)
Definition ckept (c : ccall W) (st : mat_state W) : Prop :=
  match c with
  | CResize nr nc _ => forall S x, In S (firstn nr (fst st)) -> has S x -> in_range nc x
  | CInsert _ col _ => in_range (snd st) col
  | CInserts _ cws => Forall (in_range (snd st)) (map fst cws)
  | CAdd i adds => forall S c, nth_error (fst st) i = Some S -> In c (map fst adds) -> has S c
  | _ => True
  end.
Fixpoint ckept_all (h : list (ccall W)) (st : mat_state W) : Prop :=
  match h with
  | [] => True
  | c :: h' => ckept c st /\ match mat_step add zero cmax c st with Some st' => callowed true c st -> ckept_all h' st' | None => True end
  end.
Lemma sorted_dec vs : increasing Z.ltb vs \/ ~ increasing Z.ltb vs.
Proof.
  destruct (Sorted.isSortedUnique Z.ltb vs) eqn:E; [ left; apply PropDebugCRS.unique_dec; exact E | right; intros N ].
  apply PropDebugCRS.unique_dec in N. congruence.
Qed.
(** A call which is not allowed aborts. *)
Lemma allowed_or_abort c (p : pattern W) st : mrep true p st -> ckept c st ->
  callowed true c st \/ (~ callowed true c st /\ d_cstep true true true BMalloc cmax add zero c p = Abort).
Proof.
  destruct st as [M nc]. intros R K.
  destruct c as [nr nc1 cap|nc1 caps|n|i n|i c| |i v w|i vs|i v|i vs|v| |i adds|i adds]; cbn [ckept callowed fst snd d_cstep] in *; auto.
  - destruct (sorted_dec (map fst vs)) as [D|D]; [ left; auto | right ]. split; [ tauto | ].
    exact (@DebugMatrixProofs.crs_unsorted_inserts W true p M nc i (map fst vs) (map snd vs) R D).
  - destruct (sorted_dec vs) as [D|D]; [ left; auto | right ]. split; [ exact D | ].
    exact (@DebugMatrixProofs.crs_unsorted_removes W true p M nc i vs R D).
  - destruct (sorted_dec (map fst adds)) as [D|D]; [ left; auto | right ]. split; [ tauto | ]. unfold d_addToRow.
    destruct (nth_error M i) as [S|] eqn:N.
    + destruct (@PropDebugCRS.row_seen W true true p M nc i S R N) as (o & cols & E1 & _). rewrite E1. cbn [bind]. destruct (_ && _)%bool.
      * rewrite (@PropDebugCRS.binary_bad W true true add p M nc i S R N adds); [ reflexivity | tauto ].
      * rewrite (@PropDebugCRS.linear_unsorted W true true add p i adds D). reflexivity.
    + unfold numNonZeros, sizeOfArray. rewrite (@DebugMatrixProofs.no_row W true p M nc i R N). reflexivity.
  - destruct (nth_error M i) as [S|] eqn:N; [ | left; intros S c Q; discriminate ].
    destruct (@PropDebugCRS.row_seen W true true p M nc i S R N) as (o & cols & _ & _ & _ & _ & _ & _ & Q).
    destruct (forallb (DebugCRSProofs.inrow cols) (map fst adds)) eqn:F.
    + left. intros S' c Es Hc. injection Es as <-. exact (proj1 (@PropDebugCRS.all_in W S cols _ Q) F c Hc).
    + assert (D : ~ (forall c, In c (map fst adds) -> has S c)) by (intros D; apply (proj2 (@PropDebugCRS.all_in W S cols _ Q)) in D; congruence).
      right. split; [ intros A; apply D; intros c; exact (A S c eq_refl) | ].
      rewrite (@PropDebugCRS.unsorted_bad W true true add p M nc i S R N adds D). reflexivity.
Qed.
Lemma missing_row c (p : pattern W) st : mrep true p st -> mat_step add zero cmax c st = None -> d_cstep true true true BMalloc cmax add zero c p = Abort.
Proof.
  destruct st as [M nc]. intros R St.
  assert (No : forall i f, match on_elem M i f with Some M' => Some (M', nc) | None => None end = None -> check_array true (rows p) i = Abort).
  { intros i f K. apply (@DebugMatrixProofs.no_row W true p M nc i R). unfold on_elem in K. destruct (nth_error M i); [ discriminate | reflexivity ]. }
  destruct c as [nr nc1 cap|nc1 caps|n|i n|i c| |i v w|i vs|i v|i vs|v| |i adds|i adds]; cbn [d_cstep]; cbn [mat_step] in St; try discriminate.
  - unfold d_sp_resize, check_numCols. destruct (cmax <? _)%Z; [ reflexivity | discriminate ].
  - unfold d_sp_resizeFromRowCapacities, check_numCols. destruct (cmax <? _)%Z; [ reflexivity | discriminate ].
  - unfold d_reserveRow, nonZeroCapacity, capacityOfArray. rewrite (No _ _ St). reflexivity.
  - unfold d_setRowCapacity, g_setCapacityOfArray. rewrite (No _ _ St). reflexivity.
  - unfold d_crs_insertNonZero, numNonZeros, sizeOfArray. rewrite (No _ _ St). reflexivity.
  - unfold d_crs_insertNonZeros, numNonZeros, sizeOfArray. rewrite (No _ _ St). reflexivity.
  - unfold d_crs_removeNonZero, numNonZeros, sizeOfArray. rewrite (No _ _ St). reflexivity.
  - unfold d_crs_removeNonZeros, getEntries. rewrite (No _ _ St). reflexivity.
  - unfold d_addToRow, numNonZeros, sizeOfArray. rewrite (No _ _ St). reflexivity.
  - unfold d_addUnsorted, numNonZeros, sizeOfArray. rewrite (No _ _ St). reflexivity.
Qed.
Lemma matrix_or_abort h : forall (p : pattern W) st, mrep true p st -> ckept_all h st ->
  (cvalid add zero true cmax h st /\ exists st' p', mat_run add zero cmax h st = Some st' /\ d_crun true true true BMalloc cmax add zero h p = Ok p' /\ mrep true p' st') \/
  ((~ cvalid add zero true cmax h st \/ mat_run add zero cmax h st = None) /\ d_crun true true true BMalloc cmax add zero h p = Abort).
Proof.
  induction h as [|c h IH]; intros p st R K.
  - left. split; [ exact I | ]. exists st, p. split; [ reflexivity | split; [ reflexivity | exact R ] ].
  - destruct K as [Kc K]. cbn [cvalid mat_run d_crun]. destruct (@allowed_or_abort c p st R Kc) as [Ac|[Nc Ab]].
    2: { right. split; [ left; tauto | ]. rewrite Ab. reflexivity. }
    pose proof (@CRSProofs4.cstep_ok W true true add zero cmax c p st R Ac) as Ok1. destruct (mat_step add zero cmax c st) as [st1|] eqn:St.
    + destruct Ok1 as [([p1 r] & E1 & R1 & _)|[Q _]]; [ | discriminate ]. cbn [fst] in R1.
      rewrite (@d_cstep_imp true true true c p st st1 R Ac St _ E1). cbn [bind].
      destruct (IH p1 st1 R1 (K Ac)) as [(V & Q)|(V & Q)]; [ left | right ].
      * split; [ split; assumption | exact Q ].
      * split; [ destruct V as [V|V]; [ left; tauto | right; exact V ] | exact Q ].
    + right. split; [ right; reflexivity | ]. rewrite (@missing_row c p st R St). reflexivity.
Qed.
End Matrix.

(** A valid history ends with the same matrix, or already without assertions in the moves from unconstructed slots of C24; the members of
    the view which insert and the destructor do the same on it. *)
Theorem C92_allowed : forall W add zero dbg chk tw cmax nr nc cap (h : list (ccall W)) M nc', (Z.of_nat nc - 1 <= cmax)%Z ->
  cvalid add zero tw cmax h (repeat none nr, nc) -> mat_run add zero cmax h (repeat none nr, nc) = Some (M, nc') ->
  (exists p, d_cdriven add zero cmax dbg chk tw nr nc cap h = Ok p /\ cdriven add zero chk tw cmax nr nc cap h = Ok p /\ cshows chk p (M, nc') /\
    d_crs_dtor dbg chk tw BMalloc p = Ok tt /\
    forall i S, nth_error M i = Some S ->
      (forall c w r, crs_v_insertNonZero chk tw p i c w = Ok r -> d_crs_v_insertNonZero dbg chk tw BMalloc p i c w = Ok r) /\
      (forall cs ws r, increasing Z.ltb cs -> crs_v_insertNonZeros chk tw p i cs ws = Ok r -> d_crs_v_insertNonZeros dbg chk tw BMalloc p i cs ws = Ok r)) \/
  (tw = false /\ cdriven add zero chk tw cmax nr nc cap h = Fault FMove).
Proof.
  intros W add zero dbg chk tw cmax nr nc cap h M nc' C V H.
  pose proof (@cdriven_rep W add zero chk tw cmax nr nc cap h C V) as D. rewrite H in D. destruct D as [(p & E & R)|K]; [ left | right; exact K ]. exists p.
  split; [ | split; [ exact E | split; [ exact (mrep_shows chk R) | split ] ] ].
  - destruct (@d_cnew_ok W cmax dbg chk tw nr nc cap C) as (p0 & E1 & E2 & R0). unfold cdriven in E. unfold d_cdriven. rewrite E1 in E. rewrite E2. cbn [bind] in *.
    exact (@d_crun_imp W add zero cmax dbg chk tw h p0 _ _ R0 V H p E).
  - exact (@DebugMatrixProofs.d_dtor_imp W dbg chk tw p tt (CRSProofs4.mdtor chk R)).
  - intros i S N. split.
    + intros c w r Er. exact (@DebugMatrixProofs.d_crs_v_insertNonZero_imp W dbg chk tw p M nc' i S c w R N r Er).
    + intros cs ws r Iv Er. exact (@DebugMatrixProofs.d_crs_v_insertNonZeros_imp W dbg chk tw p M nc' i S cs ws R N Iv r Er).
Qed.
Print Assumptions C92_allowed.

(** With numbers as entries and bounds checks such a history is carried out as on a vector of maps, or aborts. *)
Theorem C92_matrix_or_abort : forall W add zero cmax nr nc cap (h : list (ccall W)), (Z.of_nat nc - 1 <= cmax)%Z ->
  ckept_all add zero cmax h (repeat none nr, nc) ->
  (cvalid add zero true cmax h (repeat none nr, nc) /\ exists st p, mat_run add zero cmax h (repeat none nr, nc) = Some st /\
     d_cdriven add zero cmax true true true nr nc cap h = Ok p /\ cshows true p st) \/
  ((~ cvalid add zero true cmax h (repeat none nr, nc) \/ mat_run add zero cmax h (repeat none nr, nc) = None) /\
   d_cdriven add zero cmax true true true nr nc cap h = Abort).
Proof.
  intros W add zero cmax nr nc cap h C K. destruct (@d_cnew_ok W cmax true true true nr nc cap C) as (p0 & _ & E & R). unfold d_cdriven. rewrite E. cbn [bind].
  destruct (@matrix_or_abort W add zero cmax h p0 _ R K) as [(V & st & p & H & E1 & R1)|Q]; [ left | right; exact Q ].
  split; [ exact V | ]. exists st, p. split; [ exact H | ]. split; [ exact E1 | exact (mrep_shows true R1) ].
Qed.
Print Assumptions C92_matrix_or_abort.

(** assimilate, of any pattern by any matrix: no assertion fails where the function ends without them. *)
Theorem C92_assimilate : forall W dbg chk tw (d : W) this src r,
  crs_assimilate chk tw BMalloc d this src = Ok r -> d_crs_assimilate dbg chk tw BMalloc d this src = Ok r.
Proof. intros W dbg chk tw d this src r. exact (@DebugMatrixProofs.d_assimilate_imp W dbg chk tw d this src r). Qed.
Print Assumptions C92_assimilate.

(** Without the condition on the columns it is neither: no assertion and no bounds check sees that a column out of range and its entry are
    written over those of the next row. *)
Theorem C92_column_refuted : exists p p',
  d_cdriven Z.add 0%Z 100 true true true 2 1 1 [CInsert 0 0%Z 5%Z; CInsert 1 0%Z 6%Z] = Ok p /\ column true p 1 0 = Ok 0%Z /\ entry true p 1 0 = Ok 6%Z /\
  d_crs_insertNonZero true true true BMalloc p 0 7%Z 9%Z = Ok (p', true) /\
  numNonZeros true p' 0 = Ok 2 /\ nonZeroCapacity true p' 0 = Ok 1 /\ column true p' 1 0 = Ok 7%Z /\ entry true p' 1 0 = Ok 9%Z.
Proof. eexists. eexists. do 7 (split; [vm_compute; reflexivity|]). vm_compute. reflexivity. Qed.
Print Assumptions C92_column_refuted.

Definition matrix_history : list (ccall Z) :=
  [CInserts 0 [(1, 10); (3, 30); (4, 40)]%Z; CInserts 0 [(0, 1); (3, 99); (5, 50)]%Z; CInsert 1 2%Z 20%Z; CRemoves 0 [1; 2; 5]%Z; CRemove 1 0%Z;
   CAdd 0 [(3, 3); (4, 4)]%Z; CSetRowCapacity 0 9; CCompress].
Example C92_case :
  (exists p, d_cdriven Z.add 0%Z 100 true true true 2 6 0 matrix_history = Ok p /\ cdriven Z.add 0%Z true true 100 2 6 0 matrix_history = Ok p /\
     numNonZeros true p 0 = Ok 3 /\ column true p 0 1 = Ok 3%Z /\ entry true p 0 1 = Ok 33%Z /\ entry true p 0 2 = Ok 44%Z) /\
  (exists p, d_cdriven Z.add 0%Z 100 true true false 2 6 4 [CInserts 0 [(1, 10); (3, 30)]%Z; CRemoves 0 [1]%Z] = Ok p /\ entry true p 0 0 = Ok 30%Z /\
     d_crs_dtor true true false BMalloc p = Ok tt) /\
  ckept_all Z.add 0%Z 100 [CInserts 1 [(3, 1); (2, 1)]%Z] (repeat none 2, 6) /\
  d_cdriven Z.add 0%Z 100 true true true 2 6 0 [CInserts 1 [(3, 1); (2, 1)]%Z] = Abort /\
  d_cdriven Z.add 0%Z 100 true true true 2 6 0 [CRemoves 1 [3; 2]%Z] = Abort /\
  d_cdriven Z.add 0%Z 100 true true true 2 6 0 [CAddUnsorted 1 [(3, 1)]%Z] = Abort /\
  d_cdriven Z.add 0%Z 100 true true true 2 6 0 [CInsert 2 1%Z 1%Z] = Abort /\
  (exists m e, crs_assimilate true true BMalloc 0%Z (mkSP (null_aoa Z Z BMalloc) 0) (mkSP (null_aoa Z Z BMalloc) 4) = Ok (m, e) /\ ncols m = 4).
Proof.
  split; [ eexists; do 5 (split; [vm_compute; reflexivity|]); vm_compute; reflexivity | ].
  split; [ eexists; do 2 (split; [vm_compute; reflexivity|]); vm_compute; reflexivity | ].
  split; [ split; [ repeat constructor; unfold in_range; simpl; lia | simpl; auto ] | ].
  do 4 (split; [vm_compute; reflexivity|]). eexists. eexists. split; vm_compute; reflexivity.
Qed.
