(** Model of src/CRSMatrixView.hpp and src/CRSMatrix.hpp. The state is that of Sparsity.v, with m_entries as
    the further buffer ([dual] = true there).

    The entries handed to insertNonZero(s) are values; references into m_entries itself are in CRSOwn.v.
    The kernels launched with RAJA::forall run over the rows in order. *)
From Coq Require Import List Arith ZArith Lia Bool.
From Verif Require Import Base Mem BufferManip AoA Sorted AoS Sparsity.
From Verif Require ArrayManip.
Import ListNotations.
Set Implicit Arguments.

Section CRS.
Variable W : Type.
(** [tw]: T is trivial; [add]: operator+= of T *)
Variable chk tw : bool.
Variable kind : bkind.
Variable cmax : Z.
Variable add : W -> W -> W.
Notation aoa := (aoa Z W).
Notation X := (aoa * nat)%type.
Notation matrix := (pattern W).

Definition set_ents (e : buf W) (a : aoa) : aoa := mkAoA (numArrays a) (offs a) (szs a) (vals a) e.
(** CRSMatrixView.hpp:240-246 getEntries( row ): the pointer *)
Definition getEntries (a : aoa) (row : nat) : outcome nat := _ <- check_array chk a row ;; offset a row.
(** getEntries( row )[ j ]; the slice checks its index against the size of the row *)
Definition entry (p : matrix) (row j : nat) : outcome W :=
  e <- getEntries (rows p) row ;;
  s <- size_ (rows p) row ;;
  _ <- check_if chk (s <=? j) ;;
  rd (ents (rows p)) (e + j).

(** The members of both CallBacks which act on the entries, CRSMatrix.hpp:552-596 and CRSMatrixView.hpp:624-691;
    [rowNNZ] is m_rowNNZ, [ws] are the entries m_entriesToInsert points to. *)
Definition entry_event (rowNNZ : nat) (ws : list W) (ev : event) (b : buf W) (e : nat) : outcome (buf W) :=
  match ev with
  | EInsert pos => w <- aget ws 0 ;; ArrayManip.emplace chk tw b e rowNNZ pos w
  | ESet pos colPos => w <- aget ws colPos ;; construct tw b (e + pos) w
  | EInsertN nLeft colPos pos prevPos =>
      b1 <- ArrayManip.shiftUp chk tw b e prevPos pos nLeft ;;
      w <- aget ws colPos ;;
      d <- sub_ix (e + pos + nLeft) 1 ;;
      construct tw b1 d w
  | ERemove pos => ArrayManip.erase chk tw b e rowNNZ pos 1
  | ERemoveN nRemoved curPos nextPos => ArrayManip.shiftDown chk tw b e nextPos (curPos + 1) nRemoved
  end.
Definition crs_ev (rowNNZ : nat) (ws : list W) (ev : event) (x : X) : outcome X :=
  let '(a, e) := x in b <- entry_event rowNNZ ws ev (ents a) e ;; Ok (set_ents b a, e).

(** CRSMatrix.hpp:508-609 CallBacks; 502 dynamicallyGrowRow, 335-339 setRowCapacity *)
Definition crs_cb (p : matrix) (row rowNNZ rowCapacity : nat) (ws : list W) : callbacks Z X :=
  mkCB (fun nToAdd st =>
          let '(b, (x, _)) := st in
          let a := set_vals b x in
          a' <- (if rowCapacity <? rowNNZ + nToAdd
                 then setCapacityOfArray chk true tw true kind a row (clamp p (2 * (rowNNZ + nToAdd)))
                 else Ok a) ;;
          e' <- getEntries a' row ;;
          c <- getSetValues chk a' row ;;
          Ok (vals a', (a', e'), c))
       (crs_ev rowNNZ ws).
(** CRSMatrixView.hpp:579-706 CallBacks *)
Definition crs_view_cb (row rowNNZ rowCapacity : nat) (ws : list W) : callbacks Z X :=
  mkCB (fun nToAdd st =>
          let '(b, (x, e)) := st in
          let a := set_vals b x in
          _ <- check_if chk (rowCapacity <? rowNNZ + nToAdd) ;;
          c <- getSetValues chk a row ;;
          Ok (vals a, (a, e), c))
       (crs_ev rowNNZ ws).

(** CRSMatrix.hpp:378, 392 insertNonZero(s); the pointer of the callbacks is null until incrementSize. *)
Definition crs_insertNonZero (p : matrix) (row : nat) (col : Z) (w : W) : outcome (matrix * bool) :=
  nnz <- numNonZeros chk p row ;;
  c <- nonZeroCapacity chk p row ;;
  with_rows p (insertIntoSetImpl chk true Z.ltb Z.eqb (crs_cb p row nnz c [w]) (rows p) 0 row col).
Definition crs_insertNonZeros (p : matrix) (row : nat) (cols : list Z) (ws : list W) : outcome (matrix * nat) :=
  nnz <- numNonZeros chk p row ;;
  c <- nonZeroCapacity chk p row ;;
  with_rows p (insertsIntoSetImpl chk true Z.ltb Z.eqb (crs_cb p row nnz c ws) (rows p) 0 row cols).

(** CRSMatrixView.hpp:278, 293, members of the view *)
Definition crs_v_insertNonZero (p : matrix) (row : nat) (col : Z) (w : W) : outcome (matrix * bool) :=
  nnz <- numNonZeros chk p row ;;
  c <- nonZeroCapacity chk p row ;;
  e <- getEntries (rows p) row ;;
  with_rows p (insertIntoSetImpl chk true Z.ltb Z.eqb (crs_view_cb row nnz c [w]) (rows p) e row col).
Definition crs_v_insertNonZeros (p : matrix) (row : nat) (cols : list Z) (ws : list W) : outcome (matrix * nat) :=
  nnz <- numNonZeros chk p row ;;
  c <- nonZeroCapacity chk p row ;;
  e <- getEntries (rows p) row ;;
  with_rows p (insertsIntoSetImpl chk true Z.ltb Z.eqb (crs_view_cb row nnz c ws) (rows p) e row cols).
(** 306 removeNonZero *)
Definition crs_removeNonZero (p : matrix) (row : nat) (col : Z) : outcome (matrix * bool) :=
  nnz <- numNonZeros chk p row ;;
  c <- nonZeroCapacity chk p row ;;
  e <- getEntries (rows p) row ;;
  with_rows p (removeFromSetImpl chk true Z.ltb Z.eqb (crs_view_cb row nnz c []) (rows p) e row col).
(** 319-330 removeNonZeros *)
Definition crs_removeNonZeros (p : matrix) (row : nat) (cols : list Z) : outcome (matrix * nat) :=
  e <- getEntries (rows p) row ;;
  nnz <- numNonZeros chk p row ;;
  c <- nonZeroCapacity chk p row ;;
  '(a, nRemoved) <- removesFromSetImpl chk true Z.ltb Z.eqb (crs_view_cb row nnz c []) (rows p) e row cols ;;
  first <- sub_ix (e + nnz) nRemoved ;;
  b <- ArrayManip.destroy tw (ents a) first nRemoved ;;
  Ok (mkSP (set_ents b a) (ncols p), nRemoved).

(** Run [f] on the entries of every row. *)
Definition each_row (f : aoa -> nat -> outcome aoa) (a : aoa) : outcome aoa :=
  for_up (numArrays a) (fun row a => f a row) 0 a.
(** 345-357 setValues *)
Definition set_row (v : W) (a : aoa) (row : nat) : outcome aoa :=
  nnz <- sizeOfArray chk a row ;;
  e <- getEntries a row ;;
  b <- for_up nnz (fun i b => assign tw b (e + i) v) 0 (ents a) ;;
  Ok (set_ents b a).
Definition crs_setValues (p : matrix) (v : W) : outcome matrix := on_rows (each_row (set_row v) (rows p)) p.
(** 369-383 zero: all bytes of the buffer; [z] is the value with all bytes zero. On a type with a
    non-trivial representation this is undefined. *)
Definition crs_zero (p : matrix) (z : W) : outcome matrix :=
  if tw then Ok (mkSP (set_ents (repeat (Obj z) (length (ents (rows p)))) (rows p)) (ncols p)) else Fault FOver.

(** internal::atomicAdd, without other threads *)
Definition add_at (b : buf W) (i : nat) (v : W) : outcome (buf W) := w <- rd b i ;; assign tw b i (add w v).
(** 429-453 addToRowBinarySearch *)
Definition addBinary (p : matrix) (row : nat) (adds : list (Z * W)) : outcome matrix :=
  nnz <- numNonZeros chk p row ;;
  columns <- getSetValues chk (rows p) row ;;
  entries <- getEntries (rows p) row ;;
  '(b, _) <- fold_left (fun st cv =>
      '(b, curPos) <- st ;;
      n <- sub_ix nnz curPos ;;
      k <- find Z.ltb (vals (rows p)) (columns + curPos) n (fst cv) ;;
      let pos := k + curPos in
      b' <- add_at b (entries + pos) (snd cv) ;;
      Ok (b', pos + 1)) adds (Ok (ents (rows p), 0)) ;;
  Ok (mkSP (set_ents b (rows p)) (ncols p)).
(** The inner loop of 483-490: the first position from [j] on, among [n], with this column, else [cur] *)
Fixpoint linear (b : buf Z) (columns n j cur : nat) (c : Z) : outcome nat :=
  match n with
  | O => Ok cur
  | S n' => x <- rd b (columns + j) ;; if (x =? c)%Z then Ok j else linear b columns n' (j + 1) cur c
  end.
(** 466-495 addToRowLinearSearch *)
Definition addLinear (p : matrix) (row : nat) (adds : list (Z * W)) : outcome matrix :=
  nnz <- numNonZeros chk p row ;;
  columns <- getSetValues chk (rows p) row ;;
  entries <- getEntries (rows p) row ;;
  '(b, _) <- fold_left (fun st cv =>
      '(b, curPos) <- st ;;
      pos <- linear (vals (rows p)) columns (nnz - curPos) curPos curPos (fst cv) ;;
      b' <- add_at b (entries + pos) (snd cv) ;;
      Ok (b', pos + 1)) adds (Ok (ents (rows p), 0)) ;;
  Ok (mkSP (set_ents b (rows p)) (ncols p)).
(** 507-525 addToRowBinarySearchUnsorted *)
Definition addUnsorted (p : matrix) (row : nat) (adds : list (Z * W)) : outcome matrix :=
  nnz <- numNonZeros chk p row ;;
  columns <- getSetValues chk (rows p) row ;;
  entries <- getEntries (rows p) row ;;
  b <- fold_left (fun st cv =>
      b <- st ;;
      pos <- find Z.ltb (vals (rows p)) columns nnz (fst cv) ;;
      add_at b (entries + pos) (snd cv)) adds (Ok (ents (rows p))) ;;
  Ok (mkSP (set_ents b (rows p)) (ncols p)).
(** 399-415 addToRow *)
Definition addToRow (p : matrix) (row : nat) (adds : list (Z * W)) : outcome matrix :=
  nnz <- numNonZeros chk p row ;;
  if ((length adds <? nnz / 4) && (64 <? nnz))%bool then addBinary p row adds else addLinear p row adds.

(** CRSMatrix.hpp:133-165 assimilate; [dflt] is the value of T(). Returns *this and what is left of src:
    SparsityPatternView.hpp:419-423, 136-142, ArrayOfArraysView.hpp:254-262 leave it empty. *)
Definition destroy_row (a : aoa) (row : nat) : outcome aoa :=
  nnz <- sizeOfArray chk a row ;;
  e <- getEntries a row ;;
  b <- ArrayManip.destroy tw (ents a) e nnz ;;
  Ok (set_ents b a).
Definition default_row (dflt : W) (a : aoa) (row : nat) : outcome aoa :=
  e <- getEntries a row ;;
  n <- sizeOfArray chk a row ;;
  b <- for_up n (fun i b => construct tw b (e + i) dflt) 0 (ents a) ;;
  Ok (set_ents b a).
Definition crs_assimilate (dflt : W) (this src : matrix) : outcome (matrix * matrix) :=
  a <- (if tw then Ok (rows this) else each_row destroy_row (rows this)) ;;
  e <- BufferManip.reserve chk tw kind (ents a) 0 (valueCapacity (rows src)) ;;
  _ <- aoa_free chk true tw false kind (set_ents e a) ;;
  a' <- each_row (default_row dflt) (set_ents e (rows src)) ;;
  Ok (mkSP a' (ncols src), mkSP (null_aoa Z W kind) 0).

(** * Histories *)
Inductive ccall : Type :=
| CResize (nr nc cap : nat) | CResizeFromRowCapacities (nc : nat) (caps : list nat)
| CReserveNonZeros (n : nat) | CReserveRow (row n : nat) | CSetRowCapacity (row c : nat) | CCompress
| CInsert (row : nat) (col : Z) (w : W) | CInserts (row : nat) (cws : list (Z * W))
| CRemove (row : nat) (col : Z) | CRemoves (row : nat) (cols : list Z)
| CSetValues (w : W) | CZero
| CAdd (row : nat) (adds : list (Z * W)) | CAddUnsorted (row : nat) (adds : list (Z * W)).
Variable zero : W.
Definition cstep (c : ccall) (p : matrix) : outcome (matrix * nat) :=
  match c with
  | CResize nr nc cap => quiet (sp_resize chk tw true kind cmax p nr nc cap)
  | CResizeFromRowCapacities nc caps => quiet (sp_resizeFromRowCapacities chk tw true kind cmax p nc caps)
  | CReserveNonZeros n => quiet (reserveNonZeros chk tw true kind p n)
  | CReserveRow row n => quiet (reserveRow chk tw true kind p row n)
  | CSetRowCapacity row c => quiet (setRowCapacity chk tw true kind p row c)
  | CCompress => quiet (sp_compress chk tw true p)
  | CInsert row col w => '(p', r) <- crs_insertNonZero p row col w ;; Ok (p', flag r)
  | CInserts row cws => crs_insertNonZeros p row (map fst cws) (map snd cws)
  | CRemove row col => '(p', r) <- crs_removeNonZero p row col ;; Ok (p', flag r)
  | CRemoves row cols => crs_removeNonZeros p row cols
  | CSetValues w => quiet (crs_setValues p w)
  | CZero => quiet (crs_zero p zero)
  | CAdd row adds => quiet (addToRow p row adds)
  | CAddUnsorted row adds => quiet (addUnsorted p row adds)
  end.
Fixpoint crun (h : list ccall) (p : matrix) : outcome matrix :=
  match h with [] => Ok p | c :: h' => '(p', _) <- cstep c p ;; crun h' p' end.
(** CRSMatrix.hpp:84-85 destructor *)
Definition crs_dtor (p : matrix) : outcome unit := _ <- aoa_free chk true tw true kind (rows p) ;; Ok tt.
End CRS.
Arguments CResize {W} nr nc cap. Arguments CResizeFromRowCapacities {W} nc caps. Arguments CReserveNonZeros {W} n.
Arguments CReserveRow {W} row n. Arguments CSetRowCapacity {W} row c. Arguments CCompress {W}.
Arguments CRemove {W} row col. Arguments CRemoves {W} row cols. Arguments CZero {W}.
