(** Model of a debug build, continued: src/SparsityPatternView.hpp and src/SparsityPattern.hpp with the LVARRAY_ASSERTs of the functions
    they call; the two files have none of their own. Each definition is that of Sparsity.v over the functions of Debug.v,
    DebugSorted.v and DebugSets.v. *)
From Coq Require Import List Arith ZArith Lia Bool.
From Verif Require Import Base Mem BufferManip Debug AoA Sorted AoS Sparsity DebugSorted DebugSets.
Import ListNotations.
Set Implicit Arguments.

Section DSparsity.
Variable W : Type.
(** [dbg]: NDEBUG not defined; the others as in Sparsity.v *)
Variable dbg chk tw dual : bool.
Variable kind : bkind.
Variable cmax : Z.
Notation aoa := (aoa Z W).
Notation pattern := (pattern W).

(** SparsityPatternView.hpp:436-452 resize, SparsityPattern.hpp:289 *)
Definition d_sp_resize (p : pattern) (nr nc initialRowCapacity : nat) : outcome pattern :=
  _ <- check_numCols cmax nc ;;
  a <- g_resizeImpl dbg chk kind true tw dual (rows p) nr initialRowCapacity ;;
  Ok (mkSP a nc).
(** SparsityPattern.hpp:52-61 constructor *)
Definition d_new_sp (nr nc initialRowCapacity : nat) : outcome pattern :=
  d_sp_resize (mkSP (null_aoa Z W kind) 0) nr nc initialRowCapacity.
(** SparsityPattern.hpp:129-138 resizeFromRowCapacities *)
Definition d_sp_resizeFromRowCapacities (p : pattern) (nc : nat) (rowCapacities : list nat) : outcome pattern :=
  _ <- check_numCols cmax nc ;;
  a <- g_resizeFromCapacities dbg chk kind true tw dual (rows p) rowCapacities ;;
  Ok (mkSP a nc).
(** SparsityPatternView.hpp:265 empty( row, col ) *)
Definition d_sp_empty (p : pattern) (row : nat) (col : Z) : outcome bool :=
  b <- d_aos_contains dbg chk kind Z.ltb Z.eqb (rows p) row col ;; Ok (negb b).
(** SparsityPattern.hpp:261-265 setRowCapacity *)
Definition d_setRowCapacity (p : pattern) (row newCapacity : nat) : outcome pattern :=
  on_rows (g_setCapacityOfArray dbg chk kind true tw dual (rows p) row (clamp p newCapacity)) p.
(** SparsityPattern.hpp:225, 234 reserveRows, reserveNonZeros *)
Definition d_reserveRows (p : pattern) (n : nat) : outcome pattern := on_rows (g_aoa_reserve dbg chk kind (rows p) n) p.
Definition d_reserveNonZeros (p : pattern) (n : nat) : outcome pattern :=
  on_rows (g_reserveValues dbg chk kind true tw dual (rows p) n) p.
(** SparsityPattern.hpp:244-248 reserveNonZeros( row, nnz ) *)
Definition d_reserveRow (p : pattern) (row nnz : nat) : outcome pattern :=
  c <- nonZeroCapacity chk p row ;; if nnz <=? c then Ok p else d_setRowCapacity p row nnz.
(** SparsityPattern.hpp:272 compress *)
Definition d_sp_compress (p : pattern) : outcome pattern := on_rows (g_compress dbg chk kind true tw dual (rows p)) p.
(** SparsityPattern.hpp:297-306 appendRow *)
Definition d_appendRow (p : pattern) (nzCapacity : nat) : outcome pattern :=
  a1 <- g_push_array dbg chk kind (rows p) ;; d_setRowCapacity (mkSP a1 (ncols p)) (numArrays a1 - 1) nzCapacity.

(** SparsityPattern.hpp:389-390 dynamicallyGrowRow and 397-437 CallBacks *)
Definition d_sp_cb (p : pattern) (row : nat) : callbacks Z (aoa * nat) :=
  d_grow_cb Z W dbg chk true tw dual kind (fun newNNZ => clamp p (newNNZ * 2)) row.
(** SparsityPattern.hpp:326, 340 insertNonZero(s) *)
Definition d_insertNonZero (p : pattern) (row : nat) (col : Z) : outcome (pattern * bool) :=
  with_rows p (d_insertIntoSetImpl dbg chk true kind Z.ltb Z.eqb (d_sp_cb p row) (rows p) 0 row col).
Definition d_insertNonZeros (p : pattern) (row : nat) (cols : list Z) : outcome (pattern * nat) :=
  with_rows p (d_insertsIntoSetImpl dbg chk true kind Z.ltb Z.eqb (d_sp_cb p row) (rows p) 0 row cols).
(** SparsityPatternView.hpp:316-322, 335-346 insertNonZero(s) of the view; ArrayOfSetsView.hpp:261, 277 insertIntoSet *)
Definition d_v_insertNonZero (p : pattern) (row : nat) (col : Z) : outcome (pattern * bool) :=
  _ <- check_array chk (rows p) row ;;
  _ <- column_check chk p col ;;
  with_rows p (d_insertIntoSetImpl dbg chk true kind Z.ltb Z.eqb (view_cb Z W chk row) (rows p) 0 row col).
Definition d_v_insertNonZeros (p : pattern) (row : nat) (cols : list Z) : outcome (pattern * nat) :=
  _ <- check_array chk (rows p) row ;;
  _ <- (if chk then column_checks chk p cols else Ok tt) ;;
  with_rows p (d_insertsIntoSetImpl dbg chk true kind Z.ltb Z.eqb (view_cb Z W chk row) (rows p) 0 row cols).
(** SparsityPatternView.hpp:355-361, 374-385 removeNonZero(s) *)
Definition d_removeNonZero (p : pattern) (row : nat) (col : Z) : outcome (pattern * bool) :=
  _ <- check_array chk (rows p) row ;;
  _ <- column_check chk p col ;;
  with_rows p (d_removeFromSet dbg chk true kind Z.ltb Z.eqb (rows p) row col).
Definition d_removeNonZeros (p : pattern) (row : nat) (cols : list Z) : outcome (pattern * nat) :=
  _ <- check_array chk (rows p) row ;;
  _ <- (if chk then column_checks chk p cols else Ok tt) ;;
  with_rows p (d_removesFromSet dbg chk true kind Z.ltb Z.eqb (rows p) row cols).

Definition d_pstep (c : pcall) (p : pattern) : outcome (pattern * nat) :=
  match c with
  | PResize nr nc cap => quiet (d_sp_resize p nr nc cap)
  | PResizeFromRowCapacities nc caps => quiet (d_sp_resizeFromRowCapacities p nc caps)
  | PReserveRows n => quiet (d_reserveRows p n)
  | PReserveNonZeros n => quiet (d_reserveNonZeros p n)
  | PReserveRow row n => quiet (d_reserveRow p row n)
  | PSetRowCapacity row c => quiet (d_setRowCapacity p row c)
  | PCompress => quiet (d_sp_compress p)
  | PAppendRow c => quiet (d_appendRow p c)
  | PInsert row col => '(p', r) <- d_insertNonZero p row col ;; Ok (p', flag r)
  | PInserts row cols => d_insertNonZeros p row cols
  | PRemove row col => '(p', r) <- d_removeNonZero p row col ;; Ok (p', flag r)
  | PRemoves row cols => d_removeNonZeros p row cols
  end.
Fixpoint d_prun (h : list pcall) (p : pattern) : outcome pattern :=
  match h with [] => Ok p | c :: h' => '(p', _) <- d_pstep c p ;; d_prun h' p' end.
End DSparsity.
