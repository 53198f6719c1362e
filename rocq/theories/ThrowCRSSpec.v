(** What an exception may leave of a matrix, its rows given by their increasing lists of columns with entries. Nothing here
    mentions offsets, buffers or memory. *)
From Coq Require Import List Arith ZArith Bool.
From Verif Require Import SortedSpec SortedArray AoASpec AoSSpec CRS CRSSpec ThrowAoASpec ThrowSortedSpec.
Import ListNotations.
Set Implicit Arguments.
Unset Strict Implicit.

Section Spec.
Variable W : Type.
Variable add : W -> W -> W.
Variable zero : W.
Variable cmax : Z.
Notation line := (list (Z * W)).
Definition lines : Type := (list line * nat)%type.
Definition as_maps (M : list line) : list (row_map W) := map (fun l e => In e l) M.

Definition before (c : Z) (l : line) : line := filter (fun x => (fst x <? c)%Z) l.
Definition behind (c : Z) (l : line) : line := filter (fun x => (c <? fst x)%Z) l.
Definition holds_col (l : line) (c : Z) : bool := existsb (fun x => (fst x =? c)%Z) l.
(** A column which is there already keeps its entry. *)
Definition put_new (e : Z * W) (l : line) : line :=
  if holds_col l (fst e) then l else before (fst e) l ++ e :: behind (fst e) l.
Definition without (cols : list Z) (l : line) : line := filter (fun e => negb (existsb (Z.eqb (fst e)) cols)) l.
Definition plus_all (adds : list (Z * W)) (l : line) : line :=
  map (fun e => (fst e, fold_left add (contributions adds (fst e)) (snd e))) l.
Definition all_are (v : W) (l : line) : line := map (fun e => (fst e, v)) l.

Definition rows_after (c : ccall W) (st : lines) : option lines :=
  let '(M, nc) := st in
  let keep_cols o := match o with Some M' => Some (M', nc) | None => None end in
  match c with
  | CResize nr nc' _ => if (cmax <? Z.of_nat nc' - 1)%Z then None else Some (resized_to M nr [], nc')
  | CResizeFromRowCapacities nc' caps => if (cmax <? Z.of_nat nc' - 1)%Z then None else Some (map (fun _ => []) caps, nc')
  | CReserveNonZeros _ | CCompress => Some st
  | CReserveRow row _ => keep_cols (on_elem M row (fun l => l))
  | CSetRowCapacity row c => keep_cols (on_elem M row (firstn c))
  | CInsert row col w => keep_cols (on_elem M row (put_new (col, w)))
  | CInserts row cws => keep_cols (on_elem M row (fun l => fold_right put_new l cws))
  | CRemove row col => keep_cols (on_elem M row (without [col]))
  | CRemoves row cols => keep_cols (on_elem M row (without cols))
  | CSetValues v => Some (map (all_are v) M, nc)
  | CZero => Some (map (all_are zero) M, nc)
  | CAdd row adds | CAddUnsorted row adds => keep_cols (on_elem M row (plus_all adds))
  end.

(** The insertion into a set of columns that goes with a call *)
Definition as_insertion (c : ccall W) : option (nat * scall Z) :=
  match c with
  | CInsert row col _ => Some (row, SInsert col)
  | CInserts row cws => Some (row, SInsertRange (map fst cws))
  | _ => None
  end.
Definition columns_of (M : list line) (row : nat) : list Z := map fst (nth row M []).

(** How many entries have to be built, assigned or added to. *)
Definition ccost (c : ccall W) (M : list line) : nat :=
  match as_insertion c with
  | Some (row, s) => scost Z.eqb s (columns_of M row)
  | None => match c with
            | CSetValues _ => length (concat M)
            | CAdd _ adds | CAddUnsorted _ adds => length adds
            | _ => 0
            end
  end.
(** When [n] of them are done and the next one throws: the state the matrix is in, the rows it shows if it can be used, and
    where the gap is if it cannot. *)
Definition cleft (c : ccall W) (M : list line) (n : nat) : state_left :=
  match as_insertion c with Some (row, s) => sleft Z.ltb Z.eqb s (columns_of M row) n | None => Usable end.
Fixpoint first_are (v : W) (n : nat) (M : list line) : list line :=
  match M with [] => [] | l :: M' => (all_are v (firstn n l) ++ skipn n l) :: first_are v (n - length l) M' end.
Definition shown (c : ccall W) (M : list line) (n : nat) : list line :=
  match c with
  | CSetValues v => first_are v n M
  | CAdd row adds | CAddUnsorted row adds =>
      match on_elem M row (plus_all (firstn n adds)) with Some M' => M' | None => M end
  | _ => M
  end.
Definition cgap (c : ccall W) (M : list line) (n : nat) : nat * nat :=
  match as_insertion c with
  | Some (row, s) => match nth_error (rev (asked Z.eqb s (columns_of M row))) n with
                     | Some v => (row, number_less Z.ltb (columns_of M row) v)
                     | None => (0, 0)
                     end
  | None => (0, 0)
  end.

(** One call with budget [n] in a program that catches. *)
Definition after_call (n : nat) (c : ccall W) (st : lines) : option (lines * state_left) :=
  match rows_after c st with
  | None => None
  | Some st' => Some (if ccost c (fst st) <=? n then (st', Usable) else (shown c (fst st) n, snd st, cleft c (fst st) n))
  end.
(** The program goes on as long as the matrix can be used. *)
Fixpoint cfate (h : list (nat * ccall W)) (st : lines) : option (lines * state_left) :=
  match h with
  | [] => Some (st, Usable)
  | (n, c) :: h' => match after_call n c st with Some (st', Usable) => cfate h' st' | o => o end
  end.
Fixpoint keeps_rules (h : list (nat * ccall W)) (st : lines) : Prop :=
  match h with
  | [] => True
  | (n, c) :: h' => callowed false c (as_maps (fst st), snd st) /\
      match after_call n c st with Some (st', Usable) => keeps_rules h' st' | _ => True end
  end.
Fixpoint rows_run (h : list (ccall W)) (st : lines) : option lines :=
  match h with [] => Some st | c :: h' => match rows_after c st with Some st' => rows_run h' st' | None => None end end.
(** The calls of a history keep the rules. *)
Fixpoint obeys (h : list (ccall W)) (st : lines) : Prop :=
  match h with
  | [] => True
  | c :: h' => callowed false c (as_maps (fst st), snd st) /\ match rows_after c st with Some st' => obeys h' st' | None => True end
  end.
End Spec.
