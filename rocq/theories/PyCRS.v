(** Model of src/python/PyCRSMatrix.cpp and of the wrapper in PyCRSMatrix.hpp: the methods of pylvarray.CRSMatrix as
    Python calls them. The simplifications of PyArrays.v apply. "l" of PyArg_ParseTuple is a type of 64 bits.

    integerConversion of the number of values handed over to INDEX_TYPE is left out.
    The arguments are objects other than views of the entries of the same matrix. When both the columns and the
    entries are not accepted the error of the entries is raised; NumPy is called while the error of the columns is
    set, which is taken not to matter. Of to_scipy the three arrays handed to scipy.sparse.csr_matrix are modelled. *)
From Coq Require Import List Arith ZArith Bool.
From Verif Require Import Base Mem BufferManip Sorted AoA AoS Sparsity CRS PyBase.
Import ListNotations.
Set Implicit Arguments.
Unset Strict Implicit.

(** What a method returns: None, an integer, a view of columns, a view of entries, the arrays entries, columns and
    offsets with the numbers of rows and columns, an exception. *)
Inductive kres (W : Type) : Type :=
| KNone | KInt (z : Z) | KColumns (writeable : bool) (cs : list Z) | KEntries (writeable : bool) (ws : list W)
| KCsr (writeable : bool) (data : list W) (indices : list Z) (indptr : list nat) (shape : nat * nat) | KRaise (e : perr).
Arguments KNone {W}. Arguments KInt {W} z. Arguments KColumns {W} writeable cs. Arguments KRaise {W} e.

(** The argument [columns]: an object, or the view m.get_columns( k ) *)
Inductive kcols : Type := KObj (obj : option (npy Z)) | KOwn (k : Z).

Inductive kcall (W : Type) : Type :=
| KNumRows | KNumColumns | KGetColumns (row : Z) | KGetEntries (row : Z)
| KSetColumn (row j c : Z)                          (* m.get_columns( row )[ j ] = c *)
| KSetEntry (row j : Z) (w : W)                     (* m.get_entries( row )[ j ] = w *)
| KToSciPy | KResize (num_rows num_cols initial_row_capacity : Z) | KCompress
| KInsert (row : Z) (columns : kcols) (entries : option (npy W))
| KRemove (row : Z) (columns : kcols)
| KAdd (row : Z) (columns : kcols) (values : option (npy W))
| KGetLevel | KSetLevel (level space : Z).
Arguments KNumRows {W}. Arguments KNumColumns {W}. Arguments KGetColumns {W} row. Arguments KGetEntries {W} row.
Arguments KSetColumn {W} row j c. Arguments KToSciPy {W}. Arguments KResize {W} num_rows num_cols initial_row_capacity.
Arguments KCompress {W}. Arguments KRemove {W} row columns. Arguments KGetLevel {W}. Arguments KSetLevel {W} level space.

Section PyCRS.
Variable W : Type.
Variable chk : bool.
Variable add : W -> W -> W.
Variable safe : nat -> nat -> bool.
(** PyArray_Cast of a column and of an entry; the NumPy types of COL_TYPE and T *)
Variable convc : nat -> nat -> Z -> Z.
Variable conve : nat -> nat -> W -> W.
Variable ctype etype : nat.
(** The largest COL_TYPE and INDEX_TYPE, static_cast< int >( LvArray::MemorySpace::host ) *)
Variable cmax imax host : Z.
Notation matrix := (pattern W).

(** PyCRSMatrix.cpp:54 struct PyCRSMatrix and PyCRSMatrix.hpp:201 m_accessLevel *)
Record pycrs : Type := mkPC { pc_matrix : option matrix; pc_level : Z }.
Definition kraise (s : pycrs) (e : perr) : outcome (pycrs * kres W) := Ok (s, KRaise e).
Definition with_matrix (s : pycrs) (p : matrix) (r : kres W) : pycrs * kres W := (mkPC (Some p) (pc_level s), r).

Fixpoint read_columns (p : matrix) (i j n : nat) : outcome (list Z) :=
  match n with O => Ok [] | S n' => c <- column chk p i j ;; cs <- read_columns p i (j + 1) n' ;; Ok (c :: cs) end.
Fixpoint read_entries (p : matrix) (i j n : nat) : outcome (list W) :=
  match n with O => Ok [] | S n' => w <- entry chk p i j ;; ws <- read_entries p i (j + 1) n' ;; Ok (w :: ws) end.
(** A row number which does not exist raises RuntimeError. *)
Definition no_row (p : matrix) (row : Z) : bool := ((row <? 0) || (Z.of_nat (numArrays (rows p)) <=? row))%Z.

(** PyCRSMatrix.cpp:113-129 getColumns, PyCRSMatrix.hpp:278-285: the view is not writeable. *)
Definition k_getColumns (s : pycrs) (row : Z) : outcome (pycrs * kres W) :=
  match pc_matrix s with
  | None => kraise s ERuntime
  | Some p =>
      if negb (in_ll row) then kraise s EOverflow
      else if no_row p row then kraise s ERuntime
      else
        nnz <- numNonZeros chk p (Z.to_nat row) ;;
        cs <- read_columns p (Z.to_nat row) 0 nnz ;;
        Ok (s, KColumns false cs)
  end.
(** 134-150 getEntries, PyCRSMatrix.hpp:288-295. The access level is passed as a bool. *)
Definition k_getEntries (s : pycrs) (row : Z) : outcome (pycrs * kres W) :=
  match pc_matrix s with
  | None => kraise s ERuntime
  | Some p =>
      if negb (in_ll row) then kraise s EOverflow
      else if no_row p row then kraise s ERuntime
      else
        nnz <- numNonZeros chk p (Z.to_nat row) ;;
        ws <- read_entries p (Z.to_nat row) 0 nnz ;;
        Ok (s, KEntries (negb (pc_level s =? 0)%Z) ws)
  end.
(** get_columns( row )[ j ] = c and get_entries( row )[ j ] = w: NumPy checks whether the view is writeable and the
    index. *)
Definition k_setColumn (s : pycrs) (row : Z) : outcome (pycrs * kres W) :=
  '(_, r) <- k_getColumns s row ;;
  match r with
  | KColumns false _ => kraise s EValue
  | KRaise e => kraise s e
  | _ => kraise s EOther
  end.
Definition set_entry (p : matrix) (row j : nat) (w : W) : outcome matrix :=
  e <- getEntries chk (rows p) row ;;
  b <- assign true (ents (rows p)) (e + j) w ;;
  Ok (mkSP (set_ents b (rows p)) (ncols p)).
Definition k_setEntry (s : pycrs) (row j : Z) (w : W) : outcome (pycrs * kres W) :=
  '(_, r) <- k_getEntries s row ;;
  match r, pc_matrix s with
  | KEntries writeable ws, Some p =>
      if negb writeable then kraise s EValue
      else if negb (in_ll j) then kraise s EIndex
      else
        let j' := if (j <? 0)%Z then (j + Z.of_nat (length ws))%Z else j in
        if ((j' <? 0) || (Z.of_nat (length ws) <=? j'))%Z then kraise s EIndex
        else p' <- set_entry p (Z.to_nat row) (Z.to_nat j') w ;; Ok (with_matrix s p' KNone)
  | KRaise e, _ => kraise s e
  | _, _ => kraise s EOther
  end.

(** PyCRSMatrix.hpp:255-275 isCompressed *)
Definition isCompressed (p : matrix) : outcome bool :=
  for_up (numArrays (rows p)) (fun row b =>
    n <- numNonZeros chk p row ;; c <- nonZeroCapacity chk p row ;; Ok (b && (n =? c))) 0 true.
(** The [n] values from [i] on *)
Fixpoint read_buf {X} (b : buf X) (i n : nat) : outcome (list X) :=
  match n with O => Ok [] | S n' => v <- rd b i ;; vs <- read_buf b (i + 1) n' ;; Ok (v :: vs) end.
(** 156-189 toSciPy, PyCRSMatrix.hpp:298-310 getEntriesColumnsAndOffsets *)
Definition k_toSciPy (s : pycrs) : outcome (pycrs * kres W) :=
  match pc_matrix s with
  | None => kraise s ERuntime
  | Some p =>
      compressed <- isCompressed p ;;
      if negb compressed then kraise s ERuntime
      else if numArrays (rows p) =? 0 then kraise s ERuntime
      else
        e <- getEntries chk (rows p) 0 ;;
        c <- getSetValues chk (rows p) 0 ;;
        nnz <- offset (rows p) (numArrays (rows p)) ;;
        data <- read_buf (ents (rows p)) e nnz ;;
        indices <- read_buf (vals (rows p)) c nnz ;;
        indptr <- read_buf (offs (rows p)) 0 (numArrays (rows p) + 1) ;;
        Ok (s, KCsr (MODIFIABLE <=? pc_level s)%Z data indices indptr (numArrays (rows p), ncols p))
  end.

(** The methods which need RESIZEABLE; [k] gets the matrix. *)
Definition resizing (s : pycrs) (k : matrix -> outcome (pycrs * kres W)) : outcome (pycrs * kres W) :=
  match pc_matrix s with
  | None => kraise s ERuntime
  | Some p => if (pc_level s <? RESIZEABLE)%Z then kraise s ERuntime else k p
  end.
(** 195-213 resize, PyCRSMatrix.hpp:324-332. integerConversion ends the process if INDEX_TYPE cannot hold a value. *)
Definition k_resize (s : pycrs) (nr nc cap : Z) : outcome (pycrs * kres W) :=
  resizing s (fun p =>
    if negb (in_ll nr && in_ll nc && in_ll cap) then kraise s EOverflow
    else if ((nr <? 0) || (nc <? 0) || (cap <? 0))%Z then kraise s ERuntime
    else if ((imax <? nr) || (imax <? nc) || (imax <? cap))%Z then Abort
    else p' <- sp_resize chk true true BMalloc cmax p (Z.to_nat nr) (Z.to_nat nc) (Z.to_nat cap) ;; Ok (with_matrix s p' KNone)).
(** 218-228 compress *)
Definition k_compress (s : pycrs) : outcome (pycrs * kres W) :=
  resizing s (fun p => p' <- sp_compress chk true true p ;; Ok (with_matrix s p' KNone)).

(** The columns as parseNumPyArray gets them. PyArray_ISCARRAY is false for the own view, which is not writeable. *)
Definition k_arg (s : pycrs) (x : kcols) : outcome (option (npy Z) + perr) :=
  match x with
  | KObj obj => Ok (inl obj)
  | KOwn k =>
      '(_, r) <- k_getColumns s k ;;
      match r with
      | KColumns w cs => Ok (inl (Some (mkN 1 w ctype cs)))
      | KRaise e => Ok (inr e)
      | _ => Ok (inr EOther)
      end
  end.
Definition parse_both (cols : option (npy Z)) (es : option (npy W)) : (list Z * list W) + perr :=
  match parseNumPyArray safe convc ctype cols, parseNumPyArray safe conve etype es with
  | _, inr e => inr e
  | inr e, _ => inr e
  | inl cs, inl ws => inl (cs, ws)
  end.
(** 234-269 insert_nonzeros, PyCRSMatrix.hpp:339-350 *)
Definition k_insert (s : pycrs) (row : Z) (cols : option (npy Z)) (es : option (npy W)) : outcome (pycrs * kres W) :=
  resizing s (fun p =>
    if negb (in_ll row) then kraise s EOverflow
    else
      match parse_both cols es with
      | inr e => kraise s e
      | inl (cs, ws) =>
          if negb (length cs =? length ws) then kraise s ERuntime
          else if no_row p row then kraise s ERuntime
          else '(p', n) <- crs_insertNonZeros chk true BMalloc p (Z.to_nat row) cs ws ;; Ok (with_matrix s p' (KInt (Z.of_nat n)))
      end).
(** 277-305 remove_nonzeros, PyCRSMatrix.hpp:352-360 *)
Definition k_remove (s : pycrs) (row : Z) (cols : option (npy Z)) : outcome (pycrs * kres W) :=
  resizing s (fun p =>
    if negb (in_ll row) then kraise s EOverflow
    else
      match parseNumPyArray safe convc ctype cols with
      | inr e => kraise s e
      | inl cs =>
          if no_row p row then kraise s ERuntime
          else '(p', n) <- crs_removeNonZeros chk true p (Z.to_nat row) cs ;; Ok (with_matrix s p' (KInt (Z.of_nat n)))
      end).
(** 313-347 add_to_row, PyCRSMatrix.hpp:363-374. The number of additions is that of the values; there is no check that
    there are as many columns, so that fewer columns are read beyond their end. *)
Definition k_add (s : pycrs) (row : Z) (cols : option (npy Z)) (es : option (npy W)) : outcome (pycrs * kres W) :=
  resizing s (fun p =>
    if negb (in_ll row) then kraise s EOverflow
    else
      match parse_both cols es with
      | inr e => kraise s e
      | inl (cs, ws) =>
          if no_row p row then kraise s ERuntime
          else
            p' <- addUnsorted chk true add p (Z.to_nat row) (combine cs ws) ;;
            if length cs <? length ws then Fault FOob else Ok (with_matrix s p' KNone)
      end).
Definition with_columns (s : pycrs) (x : kcols) (k : option (npy Z) -> outcome (pycrs * kres W)) : outcome (pycrs * kres W) :=
  y <- k_arg s x ;; match y with inl obj => k obj | inr e => kraise s e end.

Definition k_step (c : kcall W) (s : pycrs) : outcome (pycrs * kres W) :=
  match c with
  (* 88-108 numRows, numColumns *)
  | KNumRows => match pc_matrix s with Some p => Ok (s, KInt (Z.of_nat (numArrays (rows p)))) | None => kraise s ERuntime end
  | KNumColumns => match pc_matrix s with Some p => Ok (s, KInt (Z.of_nat (ncols p))) | None => kraise s ERuntime end
  | KGetColumns row => k_getColumns s row
  | KGetEntries row => k_getEntries s row
  | KSetColumn row _ _ => k_setColumn s row
  | KSetEntry row j w => k_setEntry s row j w
  | KToSciPy => k_toSciPy s
  | KResize nr nc cap => k_resize s nr nc cap
  | KCompress => k_compress s
  | KInsert row cols es => with_columns s cols (fun obj => k_insert s row obj es)
  | KRemove row cols => with_columns s cols (fun obj => k_remove s row obj)
  | KAdd row cols es => with_columns s cols (fun obj => k_add s row obj es)
  (* 353-360 getAccessLevel, 367-386 setAccessLevel, PyCRSMatrix.hpp:313-321 *)
  | KGetLevel => match pc_matrix s with Some _ => Ok (s, KInt (pc_level s)) | None => kraise s ERuntime end
  | KSetLevel level space =>
      match pc_matrix s with
      | None => kraise s ERuntime
      | Some p =>
          if negb (in_int level && in_int space) then kraise s EOverflow
          else if negb (space =? host)%Z then kraise s EValue
          else Ok (mkPC (Some p) level, KNone)
      end
  end.
Fixpoint k_run (h : list (kcall W)) (s : pycrs) : outcome (pycrs * list (kres W)) :=
  match h with
  | [] => Ok (s, [])
  | c :: h' => '(s1, r) <- k_step c s ;; '(s2, rs) <- k_run h' s1 ;; Ok (s2, r :: rs)
  end.
End PyCRS.
