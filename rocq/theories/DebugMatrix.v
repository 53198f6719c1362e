(** Model of a debug build, continued: src/CRSMatrixView.hpp and src/CRSMatrix.hpp with the LVARRAY_ASSERTs of the functions they call,
    which act on the columns and on the entries; those of the addToRow functions are in DebugCRS.v. Each definition is that of CRS.v
    over the functions of Debug.v, DebugSorted.v, DebugSets.v and DebugSparsity.v. *)
From Coq Require Import List Arith ZArith Lia Bool.
From Verif Require Import Base Mem BufferManip Debug AoA Sorted AoS Sparsity CRS DebugSorted DebugSets DebugSparsity DebugCRS.
Import ListNotations.
Set Implicit Arguments.

Section DMatrix.
Variable W : Type.
(** [dbg]: NDEBUG not defined; the others as in CRS.v *)
Variable dbg chk tw : bool.
Variable kind : bkind.
Variable cmax : Z.
Variable add : W -> W -> W.
Notation aoa := (aoa Z W).
Notation X := (aoa * nat)%type.
Notation matrix := (pattern W).

(** CRSMatrix.hpp:552-596, CRSMatrixView.hpp:624-691: the members of both CallBacks which act on the entries *)
Definition d_entry_event (rowNNZ : nat) (ws : list W) (ev : event) (b : buf W) (e : nat) : outcome (buf W) :=
  match ev with
  | EInsert pos => w <- aget ws 0 ;; d_emplace dbg chk kind tw b e rowNNZ pos w
  | ESet pos colPos => w <- aget ws colPos ;; construct tw b (e + pos) w
  | EInsertN nLeft colPos pos prevPos =>
      b1 <- d_shiftUp dbg chk kind tw b e prevPos pos nLeft ;;
      w <- aget ws colPos ;;
      d <- sub_ix (e + pos + nLeft) 1 ;;
      construct tw b1 d w
  | ERemove pos => d_erase dbg chk kind tw b e rowNNZ pos 1
  | ERemoveN nRemoved curPos nextPos => d_shiftDown dbg chk kind tw b e nextPos (curPos + 1) nRemoved
  end.
Definition d_crs_ev (rowNNZ : nat) (ws : list W) (ev : event) (x : X) : outcome X :=
  let '(a, e) := x in b <- d_entry_event rowNNZ ws ev (ents a) e ;; Ok (set_ents b a, e).
(** CRSMatrix.hpp:508-609 CallBacks *)
Definition d_crs_cb (p : matrix) (row rowNNZ rowCapacity : nat) (ws : list W) : callbacks Z X :=
  mkCB (fun nToAdd st =>
          let '(b, (x, _)) := st in
          let a := set_vals b x in
          a' <- (if rowCapacity <? rowNNZ + nToAdd
                 then g_setCapacityOfArray dbg chk kind true tw true a row (clamp p (2 * (rowNNZ + nToAdd)))
                 else Ok a) ;;
          e' <- getEntries chk a' row ;;
          c <- getSetValues chk a' row ;;
          Ok (vals a', (a', e'), c))
       (d_crs_ev rowNNZ ws).
(** CRSMatrixView.hpp:579-706 CallBacks *)
Definition d_crs_view_cb (row rowNNZ rowCapacity : nat) (ws : list W) : callbacks Z X :=
  mkCB (cb_inc (crs_view_cb chk tw row rowNNZ rowCapacity ws)) (d_crs_ev rowNNZ ws).

(** CRSMatrix.hpp:378, 392 insertNonZero(s) *)
Definition d_crs_insertNonZero (p : matrix) (row : nat) (col : Z) (w : W) : outcome (matrix * bool) :=
  nnz <- numNonZeros chk p row ;;
  c <- nonZeroCapacity chk p row ;;
  with_rows p (d_insertIntoSetImpl dbg chk true kind Z.ltb Z.eqb (d_crs_cb p row nnz c [w]) (rows p) 0 row col).
Definition d_crs_insertNonZeros (p : matrix) (row : nat) (cols : list Z) (ws : list W) : outcome (matrix * nat) :=
  nnz <- numNonZeros chk p row ;;
  c <- nonZeroCapacity chk p row ;;
  with_rows p (d_insertsIntoSetImpl dbg chk true kind Z.ltb Z.eqb (d_crs_cb p row nnz c ws) (rows p) 0 row cols).
(** CRSMatrixView.hpp:278, 293 insertNonZero(s) of the view *)
Definition d_crs_v_insertNonZero (p : matrix) (row : nat) (col : Z) (w : W) : outcome (matrix * bool) :=
  nnz <- numNonZeros chk p row ;;
  c <- nonZeroCapacity chk p row ;;
  e <- getEntries chk (rows p) row ;;
  with_rows p (d_insertIntoSetImpl dbg chk true kind Z.ltb Z.eqb (d_crs_view_cb row nnz c [w]) (rows p) e row col).
Definition d_crs_v_insertNonZeros (p : matrix) (row : nat) (cols : list Z) (ws : list W) : outcome (matrix * nat) :=
  nnz <- numNonZeros chk p row ;;
  c <- nonZeroCapacity chk p row ;;
  e <- getEntries chk (rows p) row ;;
  with_rows p (d_insertsIntoSetImpl dbg chk true kind Z.ltb Z.eqb (d_crs_view_cb row nnz c ws) (rows p) e row cols).
(** 306 removeNonZero *)
Definition d_crs_removeNonZero (p : matrix) (row : nat) (col : Z) : outcome (matrix * bool) :=
  nnz <- numNonZeros chk p row ;;
  c <- nonZeroCapacity chk p row ;;
  e <- getEntries chk (rows p) row ;;
  with_rows p (d_removeFromSetImpl dbg chk true kind Z.ltb Z.eqb (d_crs_view_cb row nnz c []) (rows p) e row col).
(** 319-330 removeNonZeros *)
Definition d_crs_removeNonZeros (p : matrix) (row : nat) (cols : list Z) : outcome (matrix * nat) :=
  e <- getEntries chk (rows p) row ;;
  nnz <- numNonZeros chk p row ;;
  c <- nonZeroCapacity chk p row ;;
  '(a, nRemoved) <- d_removesFromSetImpl dbg chk true kind Z.ltb Z.eqb (d_crs_view_cb row nnz c []) (rows p) e row cols ;;
  first <- sub_ix (e + nnz) nRemoved ;;
  b <- d_destroy dbg kind tw (ents a) first nRemoved ;;
  Ok (mkSP (set_ents b a) (ncols p), nRemoved).

(** CRSMatrix.hpp:84-85 destructor *)
Definition d_crs_dtor (p : matrix) : outcome unit := _ <- g_aoa_free dbg chk kind true tw true (rows p) ;; Ok tt.
(** CRSMatrix.hpp:133-165 assimilate; [dflt] is the value of T() *)
Definition d_destroy_row (a : aoa) (row : nat) : outcome aoa :=
  nnz <- sizeOfArray chk a row ;;
  e <- getEntries chk a row ;;
  b <- d_destroy dbg kind tw (ents a) e nnz ;;
  Ok (set_ents b a).
Definition d_crs_assimilate (dflt : W) (this src : matrix) : outcome (matrix * matrix) :=
  a <- (if tw then Ok (rows this) else each_row d_destroy_row (rows this)) ;;
  e <- b_reserve dbg chk kind tw (ents a) 0 (valueCapacity (rows src)) ;;
  _ <- g_aoa_free dbg chk kind true tw false (set_ents e a) ;;
  a' <- each_row (default_row chk tw dflt) (set_ents e (rows src)) ;;
  Ok (mkSP a' (ncols src), mkSP (null_aoa Z W kind) 0).

Variable zero : W.
(** The calls of CRS.v; setValues and zero (CRSMatrixView.hpp:345-357, 369-383) have no assertion. *)
Definition d_cstep (c : ccall W) (p : matrix) : outcome (matrix * nat) :=
  match c with
  | CResize nr nc cap => quiet (d_sp_resize dbg chk tw true kind cmax p nr nc cap)
  | CResizeFromRowCapacities nc caps => quiet (d_sp_resizeFromRowCapacities dbg chk tw true kind cmax p nc caps)
  | CReserveNonZeros n => quiet (d_reserveNonZeros dbg chk tw true kind p n)
  | CReserveRow row n => quiet (d_reserveRow dbg chk tw true kind p row n)
  | CSetRowCapacity row c => quiet (d_setRowCapacity dbg chk tw true kind p row c)
  | CCompress => quiet (d_sp_compress dbg chk tw true kind p)
  | CInsert row col w => '(p', r) <- d_crs_insertNonZero p row col w ;; Ok (p', flag r)
  | CInserts row cws => d_crs_insertNonZeros p row (map fst cws) (map snd cws)
  | CRemove row col => '(p', r) <- d_crs_removeNonZero p row col ;; Ok (p', flag r)
  | CRemoves row cols => d_crs_removeNonZeros p row cols
  | CSetValues w => quiet (crs_setValues chk tw p w)
  | CZero => quiet (crs_zero tw p zero)
  | CAdd row adds => quiet (d_addToRow dbg chk tw kind add p row adds)
  | CAddUnsorted row adds => quiet (d_addUnsorted dbg chk tw kind add p row adds)
  end.
Fixpoint d_crun (h : list (ccall W)) (p : matrix) : outcome matrix :=
  match h with [] => Ok p | c :: h' => '(p', _) <- d_cstep c p ;; d_crun h' p' end.
End DMatrix.
