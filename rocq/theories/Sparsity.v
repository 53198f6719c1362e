(** Model of src/SparsityPatternView.hpp and src/SparsityPattern.hpp, and of the members of
    src/CRSMatrix.hpp which differ from those of SparsityPattern only in handing m_entries to the members
    of ArrayOfArraysView ([dual], see AoA.v).

    Columns are mathematical integers (COL_TYPE is an integral type; [cmax] is its maximum), so the column
    buffer has trivial elements. Numbers of rows, columns and non-zeros are natural numbers, so that the
    checks "nRows/nCols must be positive" (non-negative) hold. *)
From Coq Require Import List Arith ZArith Lia Bool.
From Verif Require Import Base Mem BufferManip AoA Sorted AoS.
Import ListNotations.
Set Implicit Arguments.

Section Sparsity.
Variable W : Type.
Variable chk tw dual : bool.
Variable kind : bkind.
Variable cmax : Z.
Notation aoa := (aoa Z W).

(** SparsityPatternView.hpp:455 m_numCols and the members of the parent class *)
Record pattern : Type := mkSP { rows : aoa; ncols : nat }.
Definition on_rows (m : outcome aoa) (p : pattern) : outcome pattern := a <- m ;; Ok (mkSP a (ncols p)).

(** SparsityPatternView.hpp:28-30 SPARSITYPATTERN_COLUMN_CHECK *)
Definition column_check (p : pattern) (col : Z) : outcome unit :=
  check_if chk ((col <? 0) || (Z.of_nat (ncols p) <=? col))%Z.
Fixpoint column_checks (p : pattern) (cols : list Z) : outcome unit :=
  match cols with [] => Ok tt | c :: cs => _ <- column_check p c ;; column_checks p cs end.

(** 446-447 the check that COL_TYPE can hold every column *)
Definition check_numCols (nc : nat) : outcome unit := error_if (cmax <? Z.of_nat nc - 1)%Z.
(** SparsityPatternView.hpp:436-452 resize, SparsityPattern.hpp:289, CRSMatrix.hpp:351 *)
Definition sp_resize (p : pattern) (nr nc initialRowCapacity : nat) : outcome pattern :=
  _ <- check_numCols nc ;;
  a <- resizeImpl chk true tw dual kind (rows p) nr initialRowCapacity ;;
  Ok (mkSP a nc).
(** SparsityPattern.hpp:52-61 constructor, CRSMatrix.hpp:58-64 *)
Definition new_sp (nr nc initialRowCapacity : nat) : outcome pattern :=
  sp_resize (mkSP (null_aoa Z W kind) 0) nr nc initialRowCapacity.
(** SparsityPattern.hpp:129-138, CRSMatrix.hpp:176-185 resizeFromRowCapacities *)
Definition sp_resizeFromRowCapacities (p : pattern) (nc : nat) (rowCapacities : list nat) : outcome pattern :=
  _ <- check_numCols nc ;;
  a <- resizeFromCapacities chk true tw dual kind (rows p) rowCapacities ;;
  Ok (mkSP a nc).

(** SparsityPatternView.hpp:217 numNonZeros( row ), 232 nonZeroCapacity( row ), 206-215 numNonZeros(),
    265 empty( row, col ) *)
Definition numNonZeros (p : pattern) (row : nat) : outcome nat := sizeOfArray chk (rows p) row.
Definition nonZeroCapacity (p : pattern) (row : nat) : outcome nat := capacityOfArray chk (rows p) row.
Definition totalNonZeros (p : pattern) : outcome nat :=
  for_up (numArrays (rows p)) (fun row nnz => n <- numNonZeros p row ;; Ok (nnz + n)) 0 0.
Definition sp_empty (p : pattern) (row : nat) (col : Z) : outcome bool :=
  b <- aos_contains chk Z.ltb Z.eqb (rows p) row col ;; Ok (negb b).
(** 281 getColumns( row )[ j ] *)
Definition column (p : pattern) (row j : nat) : outcome Z := aoa_at chk (rows p) row j.

(** The clamping in SparsityPattern.hpp:263 and CRSMatrix.hpp:337 *)
Definition clamp (p : pattern) (newCapacity : nat) : nat := if ncols p <? newCapacity then ncols p else newCapacity.
(** SparsityPattern.hpp:261-265, CRSMatrix.hpp:335-339 setRowCapacity *)
Definition setRowCapacity (p : pattern) (row newCapacity : nat) : outcome pattern :=
  on_rows (setCapacityOfArray chk true tw dual kind (rows p) row (clamp p newCapacity)) p.
(** SparsityPattern.hpp:225, 234 reserveRows, reserveNonZeros; CRSMatrix.hpp:304 *)
Definition reserveRows (p : pattern) (n : nat) : outcome pattern := on_rows (aoa_reserve chk kind (rows p) n) p.
Definition reserveNonZeros (p : pattern) (n : nat) : outcome pattern :=
  on_rows (reserveValues chk true tw dual kind (rows p) n) p.
(** SparsityPattern.hpp:244-248, CRSMatrix.hpp:313-317 reserveNonZeros( row, nnz ) *)
Definition reserveRow (p : pattern) (row nnz : nat) : outcome pattern :=
  c <- nonZeroCapacity p row ;; if nnz <=? c then Ok p else setRowCapacity p row nnz.
(** SparsityPattern.hpp:272, CRSMatrix.hpp:360 compress *)
Definition sp_compress (p : pattern) : outcome pattern := on_rows (compress chk true tw dual (rows p)) p.
(** SparsityPattern.hpp:297-306 appendRow *)
Definition appendRow (p : pattern) (nzCapacity : nat) : outcome pattern :=
  a1 <- push_array chk kind (rows p) ;; setRowCapacity (mkSP a1 (ncols p)) (numArrays a1 - 1) nzCapacity.

(** SparsityPattern.hpp:389-390 dynamicallyGrowRow and 397-437 CallBacks *)
Definition sp_cb (p : pattern) (row : nat) : callbacks Z (aoa * nat) :=
  grow_cb Z W chk true tw dual kind (fun newNNZ => clamp p (newNNZ * 2)) row.
Definition with_rows {R} (p : pattern) (m : outcome (aoa * R)) : outcome (pattern * R) := '(a, r) <- m ;; Ok (mkSP a (ncols p), r).
(** SparsityPattern.hpp:326, 340 insertNonZero(s): no check of the column *)
Definition insertNonZero (p : pattern) (row : nat) (col : Z) : outcome (pattern * bool) :=
  with_rows p (insertIntoSetImpl chk true Z.ltb Z.eqb (sp_cb p row) (rows p) 0 row col).
Definition insertNonZeros (p : pattern) (row : nat) (cols : list Z) : outcome (pattern * nat) :=
  with_rows p (insertsIntoSetImpl chk true Z.ltb Z.eqb (sp_cb p row) (rows p) 0 row cols).

(** SparsityPatternView.hpp:316-322, 335-346, members of the view *)
Definition v_insertNonZero (p : pattern) (row : nat) (col : Z) : outcome (pattern * bool) :=
  _ <- check_array chk (rows p) row ;;
  _ <- column_check p col ;;
  with_rows p (v_insertIntoSet chk true Z.ltb Z.eqb (rows p) row col).
Definition v_insertNonZeros (p : pattern) (row : nat) (cols : list Z) : outcome (pattern * nat) :=
  _ <- check_array chk (rows p) row ;;
  _ <- (if chk then column_checks p cols else Ok tt) ;;
  with_rows p (v_insertsIntoSet chk true Z.ltb Z.eqb (rows p) row cols).
(** 355-361, 374-385 removeNonZero(s), also members of SparsityPattern *)
Definition removeNonZero (p : pattern) (row : nat) (col : Z) : outcome (pattern * bool) :=
  _ <- check_array chk (rows p) row ;;
  _ <- column_check p col ;;
  with_rows p (removeFromSet chk true Z.ltb Z.eqb (rows p) row col).
Definition removeNonZeros (p : pattern) (row : nat) (cols : list Z) : outcome (pattern * nat) :=
  _ <- check_array chk (rows p) row ;;
  _ <- (if chk then column_checks p cols else Ok tt) ;;
  with_rows p (removesFromSet chk true Z.ltb Z.eqb (rows p) row cols).

Inductive pcall : Type :=
| PResize (nr nc cap : nat) | PResizeFromRowCapacities (nc : nat) (caps : list nat)
| PReserveRows (n : nat) | PReserveNonZeros (n : nat) | PReserveRow (row n : nat) | PSetRowCapacity (row c : nat)
| PCompress | PAppendRow (c : nat)
| PInsert (row : nat) (col : Z) | PInserts (row : nat) (cols : list Z)
| PRemove (row : nat) (col : Z) | PRemoves (row : nat) (cols : list Z).
Definition quiet (m : outcome pattern) : outcome (pattern * nat) := p <- m ;; Ok (p, 0).
Definition pstep (c : pcall) (p : pattern) : outcome (pattern * nat) :=
  match c with
  | PResize nr nc cap => quiet (sp_resize p nr nc cap)
  | PResizeFromRowCapacities nc caps => quiet (sp_resizeFromRowCapacities p nc caps)
  | PReserveRows n => quiet (reserveRows p n)
  | PReserveNonZeros n => quiet (reserveNonZeros p n)
  | PReserveRow row n => quiet (reserveRow p row n)
  | PSetRowCapacity row c => quiet (setRowCapacity p row c)
  | PCompress => quiet (sp_compress p)
  | PAppendRow c => quiet (appendRow p c)
  | PInsert row col => '(p', r) <- insertNonZero p row col ;; Ok (p', flag r)
  | PInserts row cols => insertNonZeros p row cols
  | PRemove row col => '(p', r) <- removeNonZero p row col ;; Ok (p', flag r)
  | PRemoves row cols => removeNonZeros p row cols
  end.
Fixpoint prun (h : list pcall) (p : pattern) : outcome pattern :=
  match h with [] => Ok p | c :: h' => '(p', _) <- pstep c p ;; prun h' p' end.
End Sparsity.
