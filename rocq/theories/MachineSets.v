(** Model of the members of ArrayOfSets, SparsityPattern and CRSMatrix computed in a machine integer type, as
    MachineAoA.v does it for ArrayOfArrays: INDEX_TYPE has largest value [hi], and an operation or conversion
    whose result does not fit is [Fault FOverflow]. Members which compute no sum or product of INDEX_TYPE
    values are taken from AoS.v, Sparsity.v and CRS.v.

    Simplifications: those of MachineAoA.v. sortedArrayManipulation computes in std::ptrdiff_t and is not
    checked; what it hands to the callbacks is converted to INDEX_TYPE and checked there. The positions
    addToRow counts are bounded by the number of non-zeros of the row, which is stored in an INDEX_TYPE; they
    are not checked. *)
From Coq Require Import List Arith ZArith Bool.
From Verif Require Import Base Mem BufferManip AoA Sorted AoS Sparsity CRS MachineAoA.
From Verif Require ArrayManip.
Import ListNotations.
Set Implicit Arguments.

Section Impl.
Variable V W : Type.
Variable hi : nat.
Variable chk tv : bool.
Variable lt eqb : V -> V -> bool.
Notation aoa := (aoa V W).
Notation X := (aoa * nat)%type.
Notation fit := (fit hi).
Variable cb : callbacks V X.

(** ArrayOfSetsView.hpp:364-375 insertIntoSetImpl: m_sizes[ i ] += success *)
Definition m_insertIntoSetImpl (a : aoa) (e : nat) (i : nat) (v : V) : outcome (aoa * bool) :=
  _ <- check_array chk a i ;;
  setSize <- sizeOfArray chk a i ;;
  setValues <- getSetValues chk a i ;;
  '(b, x, success) <- insert chk tv lt eqb cb (vals a) (a, e) setValues setSize v ;;
  let a1 := set_vals b (fst x) in
  s <- size_ a1 i ;;
  s' <- fit (s + if success : bool then 1 else 0) ;;
  a2 <- put_size a1 i s' ;;
  Ok (a2, success).
(** 389-407 insertIntoSetImpl( first, last ): INDEX_TYPE const nInserted, m_sizes[ i ] += nInserted *)
Definition m_insertsIntoSetImpl (a : aoa) (e : nat) (i : nat) (vs : list V) : outcome (aoa * nat) :=
  _ <- check_array chk a i ;;
  setSize <- sizeOfArray chk a i ;;
  setValues <- getSetValues chk a i ;;
  '(b, x, n) <- inserts chk tv lt eqb cb (vals a) (a, e) setValues setSize vs ;;
  nInserted <- fit n ;;
  let a1 := set_vals b (fst x) in
  s <- size_ a1 i ;;
  s' <- fit (s + nInserted) ;;
  a2 <- put_size a1 i s' ;;
  Ok (a2, nInserted).
(** 442-460 removeFromSetImpl( first, last ): INDEX_TYPE const nRemoved *)
Definition m_removesFromSetImpl (a : aoa) (e : nat) (i : nat) (vs : list V) : outcome (aoa * nat) :=
  _ <- check_array chk a i ;;
  setSize <- sizeOfArray chk a i ;;
  setValues <- getSetValues chk a i ;;
  '(b, x, n) <- removes chk tv lt eqb cb (vals a) (a, e) setValues setSize vs ;;
  nRemoved <- fit n ;;
  let a1 := set_vals b (fst x) in
  s <- size_ a1 i ;;
  s' <- sub_ix s nRemoved ;;
  a2 <- put_size a1 i s' ;;
  Ok (a2, nRemoved).
End Impl.

Section Sets.
Variable V W : Type.
Variable hi : nat.
Variable chk tv tw dual : bool.
Variable kind : bkind.
Variable lt eqb : V -> V -> bool.
Notation aoa := (aoa V W).
Notation X := (aoa * nat)%type.
Notation fit := (fit hi).

(** ArrayOfSets.hpp:511-522 incrementSize( INDEX_TYPE nToAdd ): sizeOfArray( i ) + nToAdd. [newCap] computes the
    capacity handed to setCapacityOfArray. *)
Definition m_grow_cb (newCap : nat -> outcome nat) (i : nat) : callbacks V X :=
  mkCB (fun nToAdd st =>
          let '(b, (x, e)) := st in
          let a := set_vals b x in
          n <- fit nToAdd ;;
          s <- sizeOfArray chk a i ;;
          newNNZ <- fit (s + n) ;;
          c <- m_capacityOfArray hi chk a i ;;
          a' <- (if c <? newNNZ then k <- newCap newNNZ ;; m_setCapacityOfArray hi chk tv tw dual kind a i k else Ok a) ;;
          p <- getSetValues chk a' i ;;
          Ok (vals a', (a', e), p))
       (fun _ x => Ok x).
(** 517: 2 * newNNZ *)
Definition m_aos_cb : nat -> callbacks V X := m_grow_cb (fun newNNZ => fit (2 * newNNZ)).
Definition m_insertIntoSet (a : aoa) (i : nat) (v : V) := m_insertIntoSetImpl hi chk tv lt eqb (m_aos_cb i) a 0 i v.
Definition m_insertsIntoSet (a : aoa) (i : nat) (vs : list V) := m_insertsIntoSetImpl hi chk tv lt eqb (m_aos_cb i) a 0 i vs.
Definition m_removesFromSet (a : aoa) (i : nat) (vs : list V) := m_removesFromSetImpl hi chk tv lt eqb (view_cb V W chk i) a 0 i vs.

(** ArrayOfSets.hpp:318-326 appendSet, 334-348 insertSet, 354-362 eraseSet, 448-452 reserveCapacityOfSet *)
Definition m_appendSet (a : aoa) (setCapacity : nat) : outcome aoa :=
  a1 <- m_push_array hi chk kind a ;; m_setCapacityOfArray hi chk tv tw dual kind a1 (numArrays a1 - 1) setCapacity.
Definition m_insertSet (a : aoa) (i setCapacity : nat) : outcome aoa :=
  a1 <- m_open_array hi chk kind a i ;; m_setCapacityOfArray hi chk tv tw dual kind a1 i setCapacity.
Definition m_eraseSet (a : aoa) (i : nat) : outcome aoa := m_eraseArray hi chk tv tw dual kind a i.
Definition m_reserveCapacityOfSet (a : aoa) (i newCapacity : nat) : outcome aoa :=
  _ <- check_array chk a i ;;
  c <- m_capacityOfArray hi chk a i ;;
  if c <? newCapacity then m_setCapacityOfArray hi chk tv tw dual kind a i newCapacity else Ok a.

Variable dflt : V.
Definition m_tstep (c : tcall V) (a : aoa) : outcome (aoa * nat) :=
  match c with
  | TResize n cap => void (m_resizeImpl hi chk tv tw dual kind a n cap)
  | TResizeFromCapacities caps => void (m_resizeFromCapacities hi chk tv tw dual kind a caps)
  | TReserve n => void (m_aoa_reserve hi chk kind a n)
  | TReserveValues n => void (reserveValues chk tv tw dual kind a n)
  | TCompress => void (m_compress hi chk tv tw dual a)
  | TAppendSet cap => void (m_appendSet a cap)
  | TInsertSet i cap => void (m_insertSet a i cap)
  | TEraseSet i => void (m_eraseSet a i)
  | TInsert i v => '(a', r) <- m_insertIntoSet a i v ;; Ok (a', flag r)
  | TInserts i vs => m_insertsIntoSet a i vs
  | TRemove i v => '(a', r) <- removeFromSet chk tv lt eqb a i v ;; Ok (a', flag r)
  | TRemoves i vs => m_removesFromSet a i vs
  | TClear i => void (clearSet chk tv dflt a i)
  | TSetCapacity i c => void (m_setCapacityOfArray hi chk tv tw dual kind a i c)
  | TReserveCapacity i c => void (m_reserveCapacityOfSet a i c)
  end.
Fixpoint m_trun (h : list (tcall V)) (a : aoa) : outcome aoa :=
  match h with [] => Ok a | c :: h' => '(a', _) <- m_tstep c a ;; m_trun h' a' end.
End Sets.

Section Sparsity.
Variable W : Type.
Variable hi : nat.
Variable chk tw dual : bool.
Variable kind : bkind.
Variable cmax : Z.
Notation aoa := (aoa Z W).
Notation pattern := (pattern W).
Notation fit := (fit hi).

(** SparsityPatternView.hpp:436-452 resize, SparsityPattern.hpp:129-138 resizeFromRowCapacities: the columns are
    not multiplied with anything; numCols - 1 is a difference. *)
Definition m_sp_resize (p : pattern) (nr nc initialRowCapacity : nat) : outcome pattern :=
  _ <- check_numCols cmax nc ;;
  a <- m_resizeImpl hi chk true tw dual kind (rows p) nr initialRowCapacity ;;
  Ok (mkSP a nc).
Definition m_new_sp (nr nc initialRowCapacity : nat) : outcome pattern :=
  m_sp_resize (mkSP (null_aoa Z W kind) 0) nr nc initialRowCapacity.
Definition m_sp_resizeFromRowCapacities (p : pattern) (nc : nat) (rowCapacities : list nat) : outcome pattern :=
  _ <- check_numCols cmax nc ;;
  a <- m_resizeFromCapacities hi chk true tw dual kind (rows p) rowCapacities ;;
  Ok (mkSP a nc).
(** SparsityPatternView.hpp:206-215 numNonZeros(): nnz += numNonZeros( row ) in INDEX_TYPE *)
Definition m_totalNonZeros (p : pattern) : outcome nat :=
  for_up (numArrays (rows p)) (fun row nnz => n <- numNonZeros chk p row ;; fit (nnz + n)) 0 0.
(** SparsityPattern.hpp:261-265, CRSMatrix.hpp:335-339 setRowCapacity *)
Definition m_setRowCapacity (p : pattern) (row newCapacity : nat) : outcome pattern :=
  on_rows (m_setCapacityOfArray hi chk true tw dual kind (rows p) row (clamp p newCapacity)) p.
Definition m_reserveRows (p : pattern) (n : nat) : outcome pattern := on_rows (m_aoa_reserve hi chk kind (rows p) n) p.
(** SparsityPattern.hpp:244-248, CRSMatrix.hpp:313-317 reserveNonZeros( row, nnz ) *)
Definition m_reserveRow (p : pattern) (row nnz : nat) : outcome pattern :=
  c <- m_capacityOfArray hi chk (rows p) row ;; if nnz <=? c then Ok p else m_setRowCapacity p row nnz.
Definition m_sp_compress (p : pattern) : outcome pattern := on_rows (m_compress hi chk true tw dual (rows p)) p.
(** SparsityPattern.hpp:297-306 appendRow *)
Definition m_appendRow (p : pattern) (nzCapacity : nat) : outcome pattern :=
  a1 <- m_push_array hi chk kind (rows p) ;; m_setRowCapacity (mkSP a1 (ncols p)) (numArrays a1 - 1) nzCapacity.

(** SparsityPattern.hpp:389-390 dynamicallyGrowRow: newNNZ * 2 is computed in INDEX_TYPE, before setRowCapacity
    compares it with the number of columns. *)
Definition m_sp_cb (p : pattern) (row : nat) : callbacks Z (aoa * nat) :=
  m_grow_cb Z W hi chk true tw dual kind (fun newNNZ => n <- fit (newNNZ * 2) ;; Ok (clamp p n)) row.
Definition m_insertNonZero (p : pattern) (row : nat) (col : Z) : outcome (pattern * bool) :=
  with_rows p (m_insertIntoSetImpl hi chk true Z.ltb Z.eqb (m_sp_cb p row) (rows p) 0 row col).
Definition m_insertNonZeros (p : pattern) (row : nat) (cols : list Z) : outcome (pattern * nat) :=
  with_rows p (m_insertsIntoSetImpl hi chk true Z.ltb Z.eqb (m_sp_cb p row) (rows p) 0 row cols).
Definition m_removeNonZeros (p : pattern) (row : nat) (cols : list Z) : outcome (pattern * nat) :=
  _ <- check_array chk (rows p) row ;;
  _ <- (if chk then column_checks chk p cols else Ok tt) ;;
  with_rows p (m_removesFromSet hi chk true Z.ltb Z.eqb (rows p) row cols).

Definition m_pstep (c : pcall) (p : pattern) : outcome (pattern * nat) :=
  match c with
  | PResize nr nc cap => quiet (m_sp_resize p nr nc cap)
  | PResizeFromRowCapacities nc caps => quiet (m_sp_resizeFromRowCapacities p nc caps)
  | PReserveRows n => quiet (m_reserveRows p n)
  | PReserveNonZeros n => quiet (reserveNonZeros chk tw dual kind p n)
  | PReserveRow row n => quiet (m_reserveRow p row n)
  | PSetRowCapacity row c => quiet (m_setRowCapacity p row c)
  | PCompress => quiet (m_sp_compress p)
  | PAppendRow c => quiet (m_appendRow p c)
  | PInsert row col => '(p', r) <- m_insertNonZero p row col ;; Ok (p', flag r)
  | PInserts row cols => m_insertNonZeros p row cols
  | PRemove row col => '(p', r) <- removeNonZero chk p row col ;; Ok (p', flag r)
  | PRemoves row cols => m_removeNonZeros p row cols
  end.
Fixpoint m_prun (h : list pcall) (p : pattern) : outcome pattern :=
  match h with [] => Ok p | c :: h' => '(p', _) <- m_pstep c p ;; m_prun h' p' end.
End Sparsity.

Section CRS.
Variable W : Type.
Variable hi : nat.
Variable chk tw : bool.
Variable kind : bkind.
Variable cmax : Z.
Variable add : W -> W -> W.
Notation aoa := (aoa Z W).
Notation X := (aoa * nat)%type.
Notation matrix := (pattern W).
Notation fit := (fit hi).

(** CRSMatrix.hpp:552-596 and CRSMatrixView.hpp:624-691: the arguments are of type INDEX_TYPE, and
    pos + nLeftToInsert - 1, curPos + 1 and m_rowNNZ + 1 (within emplace, in std::ptrdiff_t) are computed. *)
Definition m_event (ev : event) : outcome unit :=
  match ev with
  | EInsert pos => _ <- fit pos ;; Ok tt
  | ESet pos colPos => _ <- fit pos ;; _ <- fit colPos ;; Ok tt
  | EInsertN nLeft colPos pos prevPos =>
      _ <- fit nLeft ;; _ <- fit colPos ;; _ <- fit pos ;; _ <- fit prevPos ;; _ <- fit (pos + nLeft) ;; Ok tt
  | ERemove pos => _ <- fit pos ;; Ok tt
  | ERemoveN nRemoved curPos nextPos =>
      _ <- fit nRemoved ;; _ <- fit curPos ;; _ <- fit nextPos ;; _ <- fit (curPos + 1) ;; Ok tt
  end.
Definition m_crs_ev (rowNNZ : nat) (ws : list W) (ev : event) (x : X) : outcome X :=
  _ <- m_event ev ;; crs_ev chk tw rowNNZ ws ev x.

(** CRSMatrix.hpp:537-546 incrementSize: m_rowNNZ + nToAdd; 502 dynamicallyGrowRow: 2 * newNNZ *)
Definition m_crs_cb (p : matrix) (row rowNNZ rowCapacity : nat) (ws : list W) : callbacks Z X :=
  mkCB (fun nToAdd st =>
          let '(b, (x, _)) := st in
          let a := set_vals b x in
          n <- fit nToAdd ;;
          newNNZ <- fit (rowNNZ + n) ;;
          a' <- (if rowCapacity <? newNNZ
                 then k <- fit (2 * newNNZ) ;; m_setCapacityOfArray hi chk true tw true kind a row (clamp p k)
                 else Ok a) ;;
          e' <- getEntries chk a' row ;;
          c <- getSetValues chk a' row ;;
          Ok (vals a', (a', e'), c))
       (m_crs_ev rowNNZ ws).
(** CRSMatrixView.hpp:611-620; only removals use it here, which do not call incrementSize. *)
Definition m_crs_view_cb (row rowNNZ rowCapacity : nat) (ws : list W) : callbacks Z X :=
  mkCB (fun nToAdd st =>
          let '(b, (x, e)) := st in
          let a := set_vals b x in
          n <- fit nToAdd ;;
          _ <- (if chk then newNNZ <- fit (rowNNZ + n) ;; error_if (rowCapacity <? newNNZ) else Ok tt) ;;
          c <- getSetValues chk a row ;;
          Ok (vals a, (a, e), c))
       (m_crs_ev rowNNZ ws).

(** CRSMatrix.hpp:378, 392 insertNonZero(s); [ncols] of the range is an INDEX_TYPE *)
Definition m_crs_insertNonZero (p : matrix) (row : nat) (col : Z) (w : W) : outcome (matrix * bool) :=
  nnz <- numNonZeros chk p row ;;
  c <- m_capacityOfArray hi chk (rows p) row ;;
  with_rows p (m_insertIntoSetImpl hi chk true Z.ltb Z.eqb (m_crs_cb p row nnz c [w]) (rows p) 0 row col).
Definition m_crs_insertNonZeros (p : matrix) (row : nat) (cols : list Z) (ws : list W) : outcome (matrix * nat) :=
  _ <- fit (length cols) ;;
  nnz <- numNonZeros chk p row ;;
  c <- m_capacityOfArray hi chk (rows p) row ;;
  with_rows p (m_insertsIntoSetImpl hi chk true Z.ltb Z.eqb (m_crs_cb p row nnz c ws) (rows p) 0 row cols).
(** CRSMatrixView.hpp:306 removeNonZero, 319-330 removeNonZeros *)
Definition m_crs_removeNonZero (p : matrix) (row : nat) (col : Z) : outcome (matrix * bool) :=
  nnz <- numNonZeros chk p row ;;
  c <- m_capacityOfArray hi chk (rows p) row ;;
  e <- getEntries chk (rows p) row ;;
  with_rows p (removeFromSetImpl chk true Z.ltb Z.eqb (m_crs_view_cb row nnz c []) (rows p) e row col).
Definition m_crs_removeNonZeros (p : matrix) (row : nat) (cols : list Z) : outcome (matrix * nat) :=
  e <- getEntries chk (rows p) row ;;
  nnz <- numNonZeros chk p row ;;
  c <- m_capacityOfArray hi chk (rows p) row ;;
  '(a, nRemoved) <- m_removesFromSetImpl hi chk true Z.ltb Z.eqb (m_crs_view_cb row nnz c []) (rows p) e row cols ;;
  first <- sub_ix (e + nnz) nRemoved ;;
  b <- ArrayManip.destroy tw (ents a) first nRemoved ;;
  Ok (mkSP (set_ents b a) (ncols p), nRemoved).

Variable zero : W.
Definition m_cstep (c : ccall W) (p : matrix) : outcome (matrix * nat) :=
  match c with
  | CResize nr nc cap => quiet (m_sp_resize hi chk tw true kind cmax p nr nc cap)
  | CResizeFromRowCapacities nc caps => quiet (m_sp_resizeFromRowCapacities hi chk tw true kind cmax p nc caps)
  | CReserveNonZeros n => quiet (reserveNonZeros chk tw true kind p n)
  | CReserveRow row n => quiet (m_reserveRow hi chk tw true kind p row n)
  | CSetRowCapacity row c => quiet (m_setRowCapacity hi chk tw true kind p row c)
  | CCompress => quiet (m_sp_compress hi chk tw true p)
  | CInsert row col w => '(p', r) <- m_crs_insertNonZero p row col w ;; Ok (p', flag r)
  | CInserts row cws => m_crs_insertNonZeros p row (map fst cws) (map snd cws)
  | CRemove row col => '(p', r) <- m_crs_removeNonZero p row col ;; Ok (p', flag r)
  | CRemoves row cols => m_crs_removeNonZeros p row cols
  | CSetValues w => quiet (crs_setValues chk tw p w)
  | CZero => quiet (crs_zero tw p zero)
  | CAdd row adds => quiet (addToRow chk tw add p row adds)
  | CAddUnsorted row adds => quiet (addUnsorted chk tw add p row adds)
  end.
Fixpoint m_crun (h : list (ccall W)) (p : matrix) : outcome matrix :=
  match h with [] => Ok p | c :: h' => '(p', _) <- m_cstep c p ;; m_crun h' p' end.
End CRS.
