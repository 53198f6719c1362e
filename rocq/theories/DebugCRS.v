(** Model of a debug build, continued: the functions of src/CRSMatrixView.hpp which add to existing entries, with their
    LVARRAY_ASSERTs. Each definition is that of CRS.v with the assertions added where the source has them. *)
From Coq Require Import List Arith ZArith Lia Bool.
From Verif Require Import Base Mem BufferManip Debug Sorted AoA AoS Sparsity CRS DebugSorted.
Import ListNotations.
Set Implicit Arguments.

Section DCRS.
Variable W : Type.
(** [dbg]: NDEBUG not defined; [chk]: LVARRAY_BOUNDS_CHECK; [tw]: T trivial; [kind]: the buffer class; [add]: + of the entries *)
Variable dbg chk tw : bool.
Variable kind : bkind.
Variable add : W -> W -> W.
Notation matrix := (pattern W).

(** LVARRAY_ASSERT_EQ( columns[ pos ], col ): the column is read, too. [i] is the slot of columns[ pos ]. *)
Definition assert_column (b : buf Z) (i : nat) (col : Z) : outcome unit :=
  if dbg then x <- rd b i ;; assert_ dbg (x =? col)%Z else Ok tt.

(** CRSMatrixView.hpp:429-453 addToRowBinarySearch: one iteration *)
Definition bin_step (vs : buf Z) (columns entries nnz : nat) (st : buf W * nat) (cv : Z * W) : outcome (buf W * nat) :=
  let '(b, curPos) := st in
  n <- sub_ix nnz curPos ;;
  k <- d_find dbg kind Z.ltb vs (columns + curPos) n (fst cv) ;;
  let pos := k + curPos in
  _ <- assert_ dbg (pos <? nnz) ;;
  _ <- assert_column vs (columns + pos) (fst cv) ;;
  b' <- add_at tw add b (entries + pos) (snd cv) ;;
  Ok (b', pos + 1).
(** 466-495 addToRowLinearSearch: one iteration *)
Definition lin_step (vs : buf Z) (columns entries nnz : nat) (st : buf W * nat) (cv : Z * W) : outcome (buf W * nat) :=
  let '(b, curPos) := st in
  pos <- linear vs columns (nnz - curPos) curPos curPos (fst cv) ;;
  _ <- assert_column vs (columns + pos) (fst cv) ;;
  b' <- add_at tw add b (entries + pos) (snd cv) ;;
  Ok (b', pos + 1).
(** 507-525 addToRowBinarySearchUnsorted: one iteration *)
Definition uns_step (vs : buf Z) (columns entries nnz : nat) (b : buf W) (cv : Z * W) : outcome (buf W) :=
  pos <- d_find dbg kind Z.ltb vs columns nnz (fst cv) ;;
  _ <- assert_ dbg (pos <? nnz) ;;
  _ <- assert_column vs (columns + pos) (fst cv) ;;
  add_at tw add b (entries + pos) (snd cv).
(** the loops over i *)
Fixpoint runs {S A} (f : S -> A -> outcome S) (l : list A) (s : S) : outcome S :=
  match l with [] => Ok s | x :: l' => s' <- f s x ;; runs f l' s' end.

(** 429-453 addToRowBinarySearch *)
Definition d_addBinary (p : matrix) (row : nat) (adds : list (Z * W)) : outcome matrix :=
  _ <- assert_ dbg (isSortedUnique Z.ltb (map fst adds)) ;;
  nnz <- numNonZeros chk p row ;;
  columns <- getSetValues chk (rows p) row ;;
  entries <- getEntries chk (rows p) row ;;
  '(b, _) <- runs (bin_step (vals (rows p)) columns entries nnz) adds (ents (rows p), 0) ;;
  Ok (mkSP (set_ents b (rows p)) (ncols p)).
(** 466-495 addToRowLinearSearch *)
Definition d_addLinear (p : matrix) (row : nat) (adds : list (Z * W)) : outcome matrix :=
  _ <- assert_ dbg (isSortedUnique Z.ltb (map fst adds)) ;;
  nnz <- numNonZeros chk p row ;;
  columns <- getSetValues chk (rows p) row ;;
  entries <- getEntries chk (rows p) row ;;
  '(b, _) <- runs (lin_step (vals (rows p)) columns entries nnz) adds (ents (rows p), 0) ;;
  Ok (mkSP (set_ents b (rows p)) (ncols p)).
(** 507-525 addToRowBinarySearchUnsorted *)
Definition d_addUnsorted (p : matrix) (row : nat) (adds : list (Z * W)) : outcome matrix :=
  nnz <- numNonZeros chk p row ;;
  columns <- getSetValues chk (rows p) row ;;
  entries <- getEntries chk (rows p) row ;;
  b <- runs (uns_step (vals (rows p)) columns entries nnz) adds (ents (rows p)) ;;
  Ok (mkSP (set_ents b (rows p)) (ncols p)).
(** 399-415 addToRow *)
Definition d_addToRow (p : matrix) (row : nat) (adds : list (Z * W)) : outcome matrix :=
  nnz <- numNonZeros chk p row ;;
  if ((length adds <? nnz / 4) && (64 <? nnz))%bool then d_addBinary p row adds else d_addLinear p row adds.
End DCRS.
