(** Calls of CRSMatrix whose arguments are columns and entries of the matrix itself: m.insertNonZero( i, c, m.getEntries( k )[ l ] ),
    m.insertNonZeros( i, cols, &m.getEntries( k )[ l ], n ), m.insertNonZeros( i, &m.getColumns( k )[ l ], &m.getEntries( k )[ l ], n ) and
    m.removeNonZeros( i, &m.getColumns( k )[ l ], n ).

    As in OwnRange.v and SortedOwn.v an argument is the address of a slot of m_entries ([q]) or m_values. It is read each time the code
    dereferences it, that is, also after rows and entries were shifted; if the buffer was reallocated it dangles. The column of
    insertNonZero and removeNonZero is passed by value. The qualifier LVARRAY_RESTRICT of some of the pointers is not modelled. *)
From Coq Require Import List Arith ZArith Bool.
From Verif Require Import Base Mem BufferManip AoA Sorted AoS Sparsity CRS OwnRange SortedOwn.
From Verif Require ArrayManip.
Import ListNotations.
Set Implicit Arguments.
Unset Strict Implicit.

Section CRSOwn.
Variable W : Type.
Variable chk tw : bool.
Variable kind : bkind.
Notation aoa := (aoa Z W).
Notation X := (aoa * nat)%type.
Notation matrix := (pattern W).

(** &m.getEntries( k )[ l ], checked by the slice (CRSMatrixView.hpp:240-246), and the pointer getEntries( k ) + l *)
Definition entry_slot (p : matrix) (k l : nat) : outcome nat :=
  e <- getEntries chk (rows p) k ;;
  s <- size_ (rows p) k ;;
  _ <- check_if chk (s <=? l) ;;
  Ok (e + l).
Definition entry_address (p : matrix) (k l : nat) : outcome nat := e <- getEntries chk (rows p) k ;; Ok (e + l).
(** The pointer getColumns( k ) + l, SparsityPatternView.hpp:279 *)
Definition column_address (p : matrix) (k l : nat) : outcome nat := c <- getSetValues chk (rows p) k ;; Ok (c + l).

(** The members insert and set of both CallBacks, CRSMatrix.hpp:559-596 and CRSMatrixView.hpp:624-660: m_entriesToInsert is slot [q]. *)
Definition entry_eventOwn (rowNNZ q : nat) (ev : event) (b : buf W) (e : nat) : outcome (buf W) :=
  match ev with
  | EInsert pos => emplaceOwn chk tw b e rowNNZ pos q
  | ESet pos colPos => w <- rd b (q + colPos) ;; construct tw b (e + pos) w
  | EInsertN nLeft colPos pos prevPos =>
      b1 <- ArrayManip.shiftUp chk tw b e prevPos pos nLeft ;;
      w <- rd b1 (q + colPos) ;;
      d <- sub_ix (e + pos + nLeft) 1 ;;
      construct tw b1 d w
  | _ => entry_event chk tw rowNNZ [] ev b e
  end.
Definition crs_evOwn (rowNNZ q : nat) (ev : event) (x : X) : outcome X :=
  let '(a, e) := x in b <- entry_eventOwn rowNNZ q ev (ents a) e ;; Ok (set_ents b a, e).

(** Whether incrementSize( nToAdd ) (CRSMatrix.hpp:541-551) makes a new block of a buffer with capacity [cap]: ArrayOfArraysView.hpp:887-892
    reserves for the last offset and the increase. *)
Definition new_block (p : matrix) (a : aoa) (cap rowNNZ rowCapacity nToAdd : nat) : outcome bool :=
  if rowCapacity <? rowNNZ + nToAdd then
    o <- offset a (numArrays a) ;; Ok (cap <? o + (clamp p (2 * (rowNNZ + nToAdd)) - rowCapacity))
  else Ok false.
(** The CallBacks of CRSMatrix.hpp:508-609 with the entries from slot [q] on *)
Definition crs_cbOwn (p : matrix) (row rowNNZ rowCapacity q : nat) : callbacks Z X :=
  losing (mkCB (cb_inc (crs_cb chk tw kind p row rowNNZ rowCapacity [])) (crs_evOwn rowNNZ q)) kind
    (fun nToAdd st => new_block p (fst (snd st)) (capacity (ents (fst (snd st)))) rowNNZ rowCapacity nToAdd).
(** The same if also the columns are those of the matrix *)
Definition crs_cbOwn2 (p : matrix) (row rowNNZ rowCapacity q : nat) : callbacks Z X :=
  losing (crs_cbOwn p row rowNNZ rowCapacity q) kind
    (fun nToAdd st => new_block p (fst (snd st)) (capacity (fst st)) rowNNZ rowCapacity nToAdd).
(** The CallBacks of CRSMatrixView.hpp:579-706 *)
Definition crs_view_cbOwn (row rowNNZ rowCapacity q : nat) : callbacks Z X :=
  mkCB (cb_inc (crs_view_cb chk tw row rowNNZ rowCapacity [])) (crs_evOwn rowNNZ q).

(** CRSMatrix.hpp:378 insertNonZero *)
Definition crs_insertNonZeroOwn (p : matrix) (row : nat) (col : Z) (k l : nat) : outcome (matrix * bool) :=
  q <- entry_slot p k l ;;
  nnz <- numNonZeros chk p row ;;
  c <- nonZeroCapacity chk p row ;;
  with_rows p (insertIntoSetImpl chk true Z.ltb Z.eqb (crs_cbOwn p row nnz c q) (rows p) 0 row col).
(** 392 insertNonZeros, with columns from elsewhere *)
Definition crs_insertNonZerosOwn (p : matrix) (row : nat) (cols : list Z) (k l : nat) : outcome (matrix * nat) :=
  q <- entry_address p k l ;;
  nnz <- numNonZeros chk p row ;;
  c <- nonZeroCapacity chk p row ;;
  with_rows p (insertsIntoSetImpl chk true Z.ltb Z.eqb (crs_cbOwn p row nnz c q) (rows p) 0 row cols).
(** 392 insertNonZeros, with columns of the matrix: [n] non-zeros of row [k] from the [l]-th on; ArrayOfSetsView.hpp:389-407 *)
Definition crs_insertRowOwn (p : matrix) (row k l n : nat) : outcome (matrix * nat) :=
  qc <- column_address p k l ;;
  qe <- entry_address p k l ;;
  nnz <- numNonZeros chk p row ;;
  c <- nonZeroCapacity chk p row ;;
  let a := rows p in
  with_rows p
    (_ <- check_array chk a row ;; setSize <- sizeOfArray chk a row ;; setValues <- getSetValues chk a row ;;
     '(b, x, nInserted) <- insertsOwn chk true Z.ltb Z.eqb (crs_cbOwn2 p row nnz c qe) (vals a) (a, 0) setValues setSize qc n ;;
     let a1 := set_vals b (fst x) in
     s <- size_ a1 row ;; a2 <- put_size a1 row (s + nInserted) ;; Ok (a2, nInserted)).
(** CRSMatrixView.hpp:278, 293, members of the view *)
Definition crs_v_insertNonZeroOwn (p : matrix) (row : nat) (col : Z) (k l : nat) : outcome (matrix * bool) :=
  q <- entry_slot p k l ;;
  nnz <- numNonZeros chk p row ;;
  c <- nonZeroCapacity chk p row ;;
  e <- getEntries chk (rows p) row ;;
  with_rows p (insertIntoSetImpl chk true Z.ltb Z.eqb (crs_view_cbOwn row nnz c q) (rows p) e row col).
Definition crs_v_insertNonZerosOwn (p : matrix) (row : nat) (cols : list Z) (k l : nat) : outcome (matrix * nat) :=
  q <- entry_address p k l ;;
  nnz <- numNonZeros chk p row ;;
  c <- nonZeroCapacity chk p row ;;
  e <- getEntries chk (rows p) row ;;
  with_rows p (insertsIntoSetImpl chk true Z.ltb Z.eqb (crs_view_cbOwn row nnz c q) (rows p) e row cols).
(** 319-330 removeNonZeros, also a member of CRSMatrix; ArrayOfSetsView.hpp:442-460 *)
Definition crs_removeNonZerosOwn (p : matrix) (row k l n : nat) : outcome (matrix * nat) :=
  q <- column_address p k l ;;
  e <- getEntries chk (rows p) row ;;
  nnz <- numNonZeros chk p row ;;
  c <- nonZeroCapacity chk p row ;;
  let a := rows p in
  '(a', nRemoved) <-
    (_ <- check_array chk a row ;; setSize <- sizeOfArray chk a row ;; setValues <- getSetValues chk a row ;;
     '(b, x, nRemoved) <- removesOwn chk true Z.ltb Z.eqb (crs_view_cb chk tw row nnz c []) (vals a) (a, e) setValues setSize q n ;;
     let a1 := set_vals b (fst x) in
     s <- size_ a1 row ;; s' <- sub_ix s nRemoved ;; a2 <- put_size a1 row s' ;; Ok (a2, nRemoved)) ;;
  first <- sub_ix (e + nnz) nRemoved ;;
  b <- ArrayManip.destroy tw (ents a') first nRemoved ;;
  Ok (mkSP (set_ents b a') (ncols p), nRemoved).
End CRSOwn.
