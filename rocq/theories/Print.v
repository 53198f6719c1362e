(** Model of the rest of src/output.hpp: printing of SortedArray, ArrayOfArrays, CRSMatrix and C arrays, and
    the function print of a CRSMatrix. The slices are in Text.v.

    Text goes to a list of characters; std::endl is a newline, the flushing is left out, and so are the
    separate buffers of printf and std::cout. Indices are printed with operator<< of a signed integer type
    wider than char, or with %lld. *)
From Coq Require Import List Arith ZArith Ascii String Bool.
From Verif Require Import Base Mem AoA Sparsity CRS SortedArray Text.
Import ListNotations.
Local Open Scope string_scope.
Local Open Scope list_scope.
Local Open Scope nat_scope.
Set Implicit Arguments.

(** String literals. *)
Notation "'lit' s" := (list_ascii_of_string s) (at level 9, s at level 9).
Definition newline : ascii := ascii_of_nat 10.
Definition tab : ascii := ascii_of_nat 9.
Definition print_ix (i : nat) : text := print_int (Z.of_nat i).

(** The loop of output.hpp:51-66, 106-122, 269-277 and 290-298: "{ ", the first of [n] values, the others
    after ", ", and " }". [at_ i] prints the value at position [i]. *)
Definition show_seq (n : nat) (at_ : nat -> outcome text) : outcome text :=
  first <- (if 0 <? n then at_ 0 else Ok []) ;;
  body <- for_up (n - 1) (fun i out => x <- at_ i ;; Ok (out ++ lit ", " ++ x)) 1 (lit "{ " ++ first) ;;
  Ok (body ++ lit " }").

(** output.hpp:97-122, 132-135 operator<< of a SortedArrayView and of a SortedArray *)
Definition show_sorted {V} (print : V -> text) (chk : bool) (a : sarray V) : outcome text :=
  if s_size a =? 0 then Ok (lit "{}")
  else show_seq (s_size a) (fun i => v <- s_at chk a (Z.of_nat i) ;; Ok (print v)).

(** output.hpp:145-164, 174-177 operator<< of an ArrayOfArraysView and of an ArrayOfArrays *)
Definition show_row {V} (print : V -> text) (chk : bool) (a : aoa V unit) (i : nat) (out : text) : outcome text :=
  n <- sizeOfArray chk a i ;;
  out <- for_up n (fun j out => v <- aoa_at chk a i j ;; Ok (out ++ print v ++ lit ", ")) 0
           (out ++ print_ix i ++ [tab] ++ lit "{") ;;
  Ok (out ++ lit "}" ++ [newline]).
Definition show_aoa {V} (print : V -> text) (chk : bool) (a : aoa V unit) : outcome text :=
  out <- for_up (numArrays a) (show_row print chk a) 0 (lit "{" ++ [newline]) ;;
  Ok (out ++ lit "}" ++ [newline]).

Section Matrix.
Variable W : Type.
Variable chk : bool.
(** operator<< of COL_TYPE and of T *)
Variable printc : Z -> text.
Variable print : W -> text.
Notation matrix := (pattern W).

(** output.hpp:187-201 operator<< of a CRSMatrixView. The slices getColumns( row ) and getEntries( row ) have
    numNonZeros( row ) elements. *)
Definition show_nonzeros (p : matrix) (row : nat) (out : text) : outcome text :=
  n <- numNonZeros chk p row ;;
  cs <- show_seq n (fun j => c <- column chk p row j ;; Ok (printc c)) ;;
  es <- show_seq n (fun j => w <- entry chk p row j ;; Ok (print w)) ;;
  Ok (out ++ lit "row " ++ print_ix row ++ [newline] ++
      [tab] ++ lit "columns: " ++ cs ++ [newline] ++
      [tab] ++ lit "values: " ++ es ++ [newline]).
Definition show_crs (p : matrix) : outcome text :=
  out <- for_up (numArrays (rows p)) (show_nonzeros p) 0 (lit "{" ++ [newline]) ;;
  Ok (out ++ lit "}" ++ [newline]).

(** The conversion %<w>lld of printf: blanks on the left up to the width [w]. *)
Definition pad (w : nat) (t : text) : text := repeat c_space (w - List.length t) ++ t.
(** %9.2g of a value converted to double *)
Variable printg : W -> text.

(** output.hpp:213-256 print: it reads the buffers behind getSizes(), getOffsets(), getColumns() and
    getEntries() without any check. *)
Definition print_list (at_ : nat -> outcome nat) (n : nat) (out : text) : outcome text :=
  out <- for_up n (fun i out => k <- at_ i ;; Ok (out ++ pad 4 (print_ix k) ++ lit ", ")) 0 out ;;
  Ok (out ++ lit " }" ++ [newline]).
Definition print_nonzeros (p : matrix) (i : nat) (out : text) : outcome text :=
  n <- size_ (rows p) i ;;
  for_up n (fun j out =>
      o <- offset (rows p) i ;;
      c <- rd (vals (rows p)) (o + j) ;;
      w <- rd (ents (rows p)) (o + j) ;;
      Ok (out ++ pad 4 (print_ix i) ++ lit " " ++ pad 9 (print_int c) ++ lit " " ++ pad 9 (printg w) ++ [newline])) 0
    (out ++ pad 4 (print_ix n) ++ [newline]).
Definition print_crs (p : matrix) : outcome text :=
  let numRows := numArrays (rows p) in
  out <- print_list (size_ (rows p)) numRows
           (lit "numRows = " ++ pad 4 (print_ix numRows) ++ lit " " ++ [newline] ++ lit "ncols       = { ") ;;
  out <- print_list (offset (rows p)) (numRows + 1) (out ++ lit "row_indexes = { ") ;;
  out <- for_up numRows (print_nonzeros p) 0
           (out ++ lit "row      col      value " ++ [newline] ++ lit "----  --------- --------- " ++ [newline]) ;;
  Ok (out ++ [newline]).
End Matrix.

(** output.hpp:266-277 and 287-298 operator<< of T[ N ] and of T[ M ][ N ], N and M positive: a list stands for
    the array. *)
Definition show_c {V} (print : V -> text) (l : list V) : outcome text :=
  show_seq (List.length l) (fun i => v <- aget l i ;; Ok (print v)).
Definition show_c2 {V} (print : V -> text) (l : list (list V)) : outcome text :=
  show_seq (List.length l) (fun i => r <- aget l i ;; show_c print r).
