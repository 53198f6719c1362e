(** The texts of the containers, given the texts of what they hold. No reference to the model. *)
From Coq Require Import List Arith ZArith Ascii String.
From Verif Require Import TextSpec.
Import ListNotations.
Local Open Scope string_scope.
Local Open Scope list_scope.
Set Implicit Arguments.

Definition str (s : string) : text := list_ascii_of_string s.
Definition nl : text := [ascii_of_nat 10].
Definition tb : text := [ascii_of_nat 9].

(** "{ a, b, c }" *)
Definition seq_text (l : list text) : text := str "{ " ++ join (str ", ") l ++ str " }".
(** ... but "{}" when there is nothing *)
Definition set_text (l : list text) : text := match l with [] => str "{}" | _ => seq_text l end.

(** What is printed for each element of a list, with its position. *)
Fixpoint numbered {A} (f : nat -> A -> text) (i : nat) (l : list A) : text :=
  match l with [] => [] | x :: l' => f i x ++ numbered f (S i) l' end.

Section Rows.
(** The decimal digits of a number. *)
Variable num : nat -> text.
(** One line "i<tab>{a, b, c, }" per array, between "{" and "}". *)
Definition array_line (i : nat) (r : list text) : text :=
  num i ++ tb ++ str "{" ++ List.concat (map (fun t => t ++ str ", ") r) ++ str "}" ++ nl.
Definition arrays_text (M : list (list text)) : text := str "{" ++ nl ++ numbered array_line 0 M ++ str "}" ++ nl.

(** Three lines per row: its number, its columns, its values. *)
Definition row_lines (i : nat) (r : list (text * text)) : text :=
  str "row " ++ num i ++ nl ++
  tb ++ str "columns: " ++ seq_text (map fst r) ++ nl ++
  tb ++ str "values: " ++ seq_text (map snd r) ++ nl.
Definition matrix_text (M : list (list (text * text))) : text := str "{" ++ nl ++ numbered row_lines 0 M ++ str "}" ++ nl.

(** The table of print: right-aligned numbers. *)
Definition right (w : nat) (t : text) : text := repeat " "%char (w - List.length t) ++ t.
Definition list_line (name : string) (l : list nat) : text :=
  str name ++ str " = { " ++ List.concat (map (fun k => right 4 (num k) ++ str ", ") l) ++ str " }" ++ nl.
Definition table_row (i : nat) (r : list (text * text)) : text :=
  right 4 (num (List.length r)) ++ nl ++
  List.concat (map (fun e => right 4 (num i) ++ str " " ++ right 9 (fst e) ++ str " " ++ right 9 (snd e) ++ nl) r).
(** 0 and the sums of the first numbers, of the first two, ... *)
Fixpoint sums (from : nat) (l : list nat) : list nat := match l with [] => [from] | k :: l' => from :: sums (from + k) l' end.
Definition table (M : list (list (text * text))) (caps : list nat) : text :=
  str "numRows = " ++ right 4 (num (List.length M)) ++ str " " ++ nl ++
  list_line "ncols      " (map (@List.length _) M) ++
  list_line "row_indexes" (sums 0 caps) ++
  str "row      col      value " ++ nl ++
  str "----  --------- --------- " ++ nl ++
  numbered table_row 0 M ++ nl.
End Rows.
