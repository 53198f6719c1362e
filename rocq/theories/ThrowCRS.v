(** What happens to a CRSMatrix when an exception leaves one of its methods. As in ThrowSets.v, the columns being integers:
    the copies of entries made from arguments, assignments to entries and operator+= throw once the budget [n] is used up.
    Moves, destructors, comparisons and operations on integers do not throw; a failed assignment or += leaves its target
    as it was. *)
From Coq Require Import List Arith ZArith Lia Bool.
From Verif Require Import Base Mem BufferManip AoA Sorted AoS Sparsity CRS Throw ThrowSorted ThrowSets.
From Verif Require ArrayManip.
Import ListNotations.
Set Implicit Arguments.

(** A loop over a list of arguments *)
Fixpoint x_each {S C X} (f : nat -> S -> C -> xout S X) (l : list C) (n : nat) (s : S) : xout S X :=
  match l with [] => XOk n s | c :: l' => let! n1 s1 <~ f n s c ;; x_each f l' n1 s1 end.

Section XCRS.
Variable W : Type.
Variable chk tw : bool.
Notation kind := BMalloc.
Variable cmax : Z.
Variable add : W -> W -> W.
Variable zero : W.
Notation aoa := (aoa Z W).
Notation X := (aoa * nat)%type.
Notation matrix := (pattern W).

(** CRSMatrix.hpp:552-596, CRSMatrixView.hpp:624-691: the column is in its place already when the entry is built. *)
Definition x_entry_event (n rowNNZ : nat) (ws : list W) (ev : event) (b : buf W) (e : nat) : xout (buf W) (buf W) :=
  match ev with
  | EInsert pos => let! n1 w <~ xlift n b (aget ws 0) ;; x_am_emplace chk tw n1 b e rowNNZ pos w
  | ESet pos colPos => let! n1 w <~ xlift n b (aget ws colPos) ;; x_construct tw n1 b (e + pos) w
  | EInsertN nLeft colPos pos prevPos =>
      let! n1 b1 <~ xlift n b (ArrayManip.shiftUp chk tw b e prevPos pos nLeft) ;;
      let! n2 w <~ xlift n1 b1 (aget ws colPos) ;;
      let! n3 d <~ xlift n2 b1 (sub_ix (e + pos + nLeft) 1) ;;
      x_construct tw n3 b1 d w
  | _ => xlift n b (entry_event chk tw rowNNZ ws ev b e)
  end.
Definition x_crs_ev (rowNNZ : nat) (ws : list W) (n : nat) (ev : event) (x : X) : xout X X :=
  let! n1 b <~ xleft (fun b => (set_ents b (fst x), snd x)) (x_entry_event n rowNNZ ws ev (ents (fst x)) (snd x)) ;;
  XOk n1 (set_ents b (fst x), snd x).
Definition x_crs_cb (p : matrix) (row rowNNZ rowCapacity : nat) (ws : list W) : xcallbacks Z X :=
  mkXCB (cb_inc (crs_cb chk tw kind p row rowNNZ rowCapacity ws)) (x_crs_ev rowNNZ ws).
Definition x_crs_view_cb (row rowNNZ rowCapacity : nat) (ws : list W) : xcallbacks Z X :=
  mkXCB (cb_inc (crs_view_cb chk tw row rowNNZ rowCapacity ws)) (x_crs_ev rowNNZ ws).

Definition back (p : matrix) (a : aoa) : matrix := mkSP a (ncols p).
Definition x_with_rows {R} (p : matrix) (m : xout (aoa * R) aoa) : xout (matrix * R) matrix :=
  let! n r <~ xleft (back p) m ;; XOk n (back p (fst r), snd r).
(** CRSMatrix.hpp:378, 392 insertNonZero(s) *)
Definition x_crs_insertNonZero (n : nat) (p : matrix) (row : nat) (col : Z) (w : W) : xout (matrix * bool) matrix :=
  let! n1 nnz <~ xlift n p (numNonZeros chk p row) ;;
  let! n2 c <~ xlift n1 p (nonZeroCapacity chk p row) ;;
  x_with_rows p (x_insertIntoSetImpl chk true Z.ltb Z.eqb (x_crs_cb p row nnz c [w]) n2 (rows p) 0 row col).
Definition x_crs_insertNonZeros (n : nat) (p : matrix) (row : nat) (cols : list Z) (ws : list W) : xout (matrix * nat) matrix :=
  let! n1 nnz <~ xlift n p (numNonZeros chk p row) ;;
  let! n2 c <~ xlift n1 p (nonZeroCapacity chk p row) ;;
  x_with_rows p (x_insertsIntoSetImpl chk true Z.ltb Z.eqb (x_crs_cb p row nnz c ws) n2 (rows p) 0 row cols).
(** CRSMatrixView.hpp:293 insertNonZeros of the view *)
Definition x_crs_v_insertNonZeros (n : nat) (p : matrix) (row : nat) (cols : list Z) (ws : list W) : xout (matrix * nat) matrix :=
  let! n1 nnz <~ xlift n p (numNonZeros chk p row) ;;
  let! n2 c <~ xlift n1 p (nonZeroCapacity chk p row) ;;
  let! n3 e <~ xlift n2 p (getEntries chk (rows p) row) ;;
  x_with_rows p (x_insertsIntoSetImpl chk true Z.ltb Z.eqb (x_crs_view_cb row nnz c ws) n3 (rows p) e row cols).

(** CRSMatrixView.hpp:345-357 setValues *)
Definition x_set_row (v : W) (row n : nat) (a : aoa) : xout aoa aoa :=
  let! n1 nnz <~ xlift n a (sizeOfArray chk a row) ;;
  let! n2 e <~ xlift n1 a (getEntries chk a row) ;;
  let! n3 b <~ xleft (fun b => set_ents b a) (xfor_up nnz (fun i n b => x_assign tw n b (e + i) v) 0 n2 (ents a)) ;;
  XOk n3 (set_ents b a).
Definition x_crs_setValues (n : nat) (p : matrix) (v : W) : xout matrix matrix :=
  let! n1 a <~ xleft (back p) (xfor_up (numArrays (rows p)) (x_set_row v) 0 n (rows p)) ;; XOk n1 (back p a).

(** internal::atomicAdd, without other threads *)
Definition x_add_at (n : nat) (b : buf W) (i : nat) (v : W) : xout (buf W) (buf W) :=
  let! n1 w <~ xlift n b (rd b i) ;; x_assign tw n1 b i (add w v).
(** The loops of 429-453, 466-495 and 507-525; [seek] is the search for the position of the entry, given the last one. *)
Definition x_add_loop (seek : nat -> Z -> outcome nat) (entries n : nat) (adds : list (Z * W)) (b : buf W) : xout (buf W * nat) (buf W) :=
  x_each (fun n st cv =>
      let! n1 pos <~ xlift n (fst st) (seek (snd st) (fst cv)) ;;
      let! n2 b' <~ x_add_at n1 (fst st) (entries + pos) (snd cv) ;;
      XOk n2 (b', pos + 1)) adds n (b, 0).
Definition x_add_with (seek : nat -> nat -> nat -> Z -> outcome nat) (n : nat) (p : matrix) (row : nat) (adds : list (Z * W)) : xout matrix matrix :=
  let! n1 nnz <~ xlift n p (numNonZeros chk p row) ;;
  let! n2 columns <~ xlift n1 p (getSetValues chk (rows p) row) ;;
  let! n3 entries <~ xlift n2 p (getEntries chk (rows p) row) ;;
  let! n4 r <~ xleft (fun b => back p (set_ents b (rows p))) (x_add_loop (seek nnz columns) entries n3 adds (ents (rows p))) ;;
  XOk n4 (back p (set_ents (fst r) (rows p))).
Definition x_addBinary n (p : matrix) := x_add_with (fun nnz columns cur c =>
  m <- sub_ix nnz cur ;; k <- find Z.ltb (vals (rows p)) (columns + cur) m c ;; Ok (k + cur)) n p.
Definition x_addLinear n (p : matrix) := x_add_with (fun nnz columns cur c => linear (vals (rows p)) columns (nnz - cur) cur cur c) n p.
Definition x_addUnsorted n (p : matrix) := x_add_with (fun nnz columns _ c => find Z.ltb (vals (rows p)) columns nnz c) n p.
(** 399-415 addToRow *)
Definition x_addToRow (n : nat) (p : matrix) (row : nat) (adds : list (Z * W)) : xout matrix matrix :=
  let! n1 nnz <~ xlift n p (numNonZeros chk p row) ;;
  if ((length adds <? nnz / 4) && (64 <? nnz))%bool then x_addBinary n1 p row adds else x_addLinear n1 p row adds.

(** The remaining methods build no entries from arguments and assign none. *)
Definition x_quiet (m : xout matrix matrix) : xout (matrix * nat) matrix := let! n p <~ m ;; XOk n (p, 0).
Definition x_cstep (n : nat) (c : ccall W) (p : matrix) : xout (matrix * nat) matrix :=
  match c with
  | CInsert row col w => let! n1 r <~ x_crs_insertNonZero n p row col w ;; XOk n1 (fst r, flag (snd r))
  | CInserts row cws => x_crs_insertNonZeros n p row (map fst cws) (map snd cws)
  | CSetValues w => x_quiet (x_crs_setValues n p w)
  | CAdd row adds => x_quiet (x_addToRow n p row adds)
  | CAddUnsorted row adds => x_quiet (x_addUnsorted n p row adds)
  | _ => xlift n p (cstep chk tw kind cmax add zero c p)
  end.

(** A program that catches every exception: it stops at the first object whose destructor would not work. *)
Fixpoint x_crun (h : list (nat * ccall W)) (p : matrix) : outcome matrix :=
  match h with
  | [] => Ok p
  | (n, c) :: h' =>
      match x_cstep n c p with
      | XOk _ r => x_crun h' (fst r)
      | XThrow _ t => match crs_dtor chk tw kind t with Ok _ => x_crun h' t | _ => Ok t end
      | XFault f => Fault f
      end
  end.
End XCRS.
