(** Model of the addToRow functions of CRSMatrixView called by many threads with an atomic policy. *)
From Coq Require Import List Arith ZArith Bool.
From Verif Require Import Base Mem Sorted AoA AoS Sparsity CRS Conc.
Import ListNotations.
Set Implicit Arguments.

Section Add.
Variable W : Type.
Variables chk tw : bool.
Variable add : W -> W -> W.
Notation matrix := (pattern W).

(** CRSMatrixView.hpp: addToRow 399-415, addToRowBinarySearch 429-453, addToRowLinearSearch 466-495,
    addToRowBinarySearchUnsorted 507-525 *)
Inductive how : Type := HAuto | HBinary | HLinear | HUnsorted.
Record rowcall : Type := mkCall { c_how : how; c_row : nat; c_adds : list (Z * W) }.
(** The locals of the loops: nnz, columns, entries, curPos, and the part of cols and vals still to be done. *)
Record locals : Type := mkLoc { l_how : how; l_row : nat; l_nnz : nat; l_columns : nat; l_entries : nat; l_cur : nat }.
Inductive place_add : Type :=
| AIdle
| ALoop (l : locals) (adds : list (Z * W))
| AFound (l : locals) (pos : nat) (v : W) (adds : list (Z * W)).
Notation dthread := (place_add * list rowcall)%type.

(** The search of one iteration; no thread writes the columns. *)
Definition search (p : matrix) (l : locals) (c : Z) : outcome nat :=
  match l_how l with
  | HUnsorted => find Z.ltb (vals (rows p)) (l_columns l) (l_nnz l) c
  | HBinary => n <- sub_ix (l_nnz l) (l_cur l) ;; k <- find Z.ltb (vals (rows p)) (l_columns l + l_cur l) n c ;; Ok (k + l_cur l)
  | HAuto | HLinear => linear (vals (rows p)) (l_columns l) (l_nnz l - l_cur l) (l_cur l) (l_cur l) c
  end.
(** The heuristic of 404-414 *)
Definition pick (h : how) (nnz nCols : nat) : how :=
  match h with HAuto => if ((nCols <? nnz / 4) && (64 <? nnz))%bool then HBinary else HLinear | _ => h end.
(** One step: entering a function up to its loop; a search; one internal::atomicAdd, which reads, adds and writes
    in one step; leaving. *)
Definition add_step (p : matrix) (t : dthread) : outcome (matrix * dthread) :=
  match t with
  | (AIdle, []) => Ok (p, t)
  | (AIdle, c :: q) =>
      nnz <- numNonZeros chk p (c_row c) ;;
      columns <- getSetValues chk (rows p) (c_row c) ;;
      entries <- getEntries chk (rows p) (c_row c) ;;
      Ok (p, (ALoop (mkLoc (pick (c_how c) nnz (length (c_adds c))) (c_row c) nnz columns entries 0) (c_adds c), q))
  | (ALoop l [], q) => Ok (p, (AIdle, q))
  | (ALoop l ((c, v) :: adds), q) => pos <- search p l c ;; Ok (p, (AFound l pos v adds, q))
  | (AFound l pos v adds, q) =>
      b <- add_at tw add (ents (rows p)) (l_entries l + pos) v ;;
      Ok (mkSP (set_ents b (rows p)) (ncols p),
          (ALoop (mkLoc (l_how l) (l_row l) (l_nnz l) (l_columns l) (l_entries l) (pos + 1)) adds, q))
  end.
Definition add_start (calls : list (list rowcall)) : list dthread := map (fun q => (AIdle, q)) calls.
Definition add_finished (ths : list dthread) : Prop := Forall (fun t => t = (AIdle, [])) ths.
End Add.
Arguments AIdle {W}.
