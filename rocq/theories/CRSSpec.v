(** What the calls on a CRSMatrix mean: a vector of finite maps from columns to entries, given by their
    graphs, and a number of columns. *)
From Coq Require Import List Arith ZArith.
From Verif Require Import SortedSpec SortedArraySpec AoASpec AoSSpec SparsitySpec CRS.
Import ListNotations.
Set Implicit Arguments.
Unset Strict Implicit.

Section Spec.
Variable W : Type.
Variable add : W -> W -> W.
Variable zero : W.
Definition row_map : Type := Z * W -> Prop.
Definition mat_state : Type := (list row_map * nat)%type.
Definition has (S : row_map) (c : Z) : Prop := exists w, S (c, w).

(** The values added to column [c], in order. *)
Definition contributions (adds : list (Z * W)) (c : Z) : list W := map snd (filter (fun a => (fst a =? c)%Z) adds).
Definition added (adds : list (Z * W)) (S : row_map) : row_map :=
  fun e => exists w, S (fst e, w) /\ snd e = fold_left add (contributions adds (fst e)) w.
Definition filled (v : W) (S : row_map) : row_map := fun e => has S (fst e) /\ snd e = v.

Section Step.
(** [triv]: the entries are numbers, as zero() wants them. *)
Variable triv : bool.
(** What the caller has to respect: columns within range when inserting, sorted ranges without duplicates
    (CRSMatrix.hpp:388, CRSMatrixView.hpp:317), no resize which cuts off columns in use, adding only to
    existing entries, with sorted columns without duplicates for addToRow (CRSMatrixView.hpp:386-394). *)
Definition callowed (c : ccall W) (st : mat_state) : Prop :=
  match c with
  | CResize nr nc _ => forall S x, In S (firstn nr (fst st)) -> has S x -> in_range nc x
  | CInsert _ col _ => in_range (snd st) col
  | CInserts _ cws => increasing Z.ltb (map fst cws) /\ Forall (in_range (snd st)) (map fst cws)
  | CRemoves _ cols => increasing Z.ltb cols
  | CZero => triv = true
  | CAdd i adds => increasing Z.ltb (map fst adds) /\ forall S c, nth_error (fst st) i = Some S -> In c (map fst adds) -> has S c
  | CAddUnsorted i adds => forall S c, nth_error (fst st) i = Some S -> In c (map fst adds) -> has S c
  | _ => True
  end.

Variable cmax : Z.
(** [None] when a row does not exist or COL_TYPE cannot hold the columns. Inserting keeps existing entries. *)
Definition mat_step (c : ccall W) (st : mat_state) : option mat_state :=
  let '(M, nc) := st in
  let keep_cols o := match o with Some M' => Some (M', nc) | None => None end in
  match c with
  | CResize nr nc' _ => if (cmax <? Z.of_nat nc' - 1)%Z then None else Some (resized_to M nr none, nc')
  | CResizeFromRowCapacities nc' caps => if (cmax <? Z.of_nat nc' - 1)%Z then None else Some (map (fun _ => none) caps, nc')
  | CReserveNonZeros _ | CCompress => Some st
  | CReserveRow row _ => keep_cols (on_elem M row (fun S => S))
  | CSetRowCapacity row c => keep_cols (on_elem M row (smallest (fun y x => (fst y < fst x)%Z) c))
  | CInsert row col w => keep_cols (on_elem M row (fun S e => S e \/ (e = (col, w) /\ ~ has S col)))
  | CInserts row cws => keep_cols (on_elem M row (fun S e => S e \/ (In e cws /\ ~ has S (fst e))))
  | CRemove row col => keep_cols (on_elem M row (fun S e => S e /\ fst e <> col))
  | CRemoves row cols => keep_cols (on_elem M row (fun S e => S e /\ ~ In (fst e) cols))
  | CSetValues v => Some (map (filled v) M, nc)
  | CZero => Some (map (filled zero) M, nc)
  | CAdd row adds | CAddUnsorted row adds => keep_cols (on_elem M row (added adds))
  end.
Fixpoint mat_run (h : list (ccall W)) (st : mat_state) : option mat_state :=
  match h with [] => Some st | c :: h' => match mat_step c st with Some st' => mat_run h' st' | None => None end end.
Fixpoint cvalid (h : list (ccall W)) (st : mat_state) : Prop :=
  match h with
  | [] => True
  | c :: h' => callowed c st /\ match mat_step c st with Some st' => cvalid h' st' | None => True end
  end.
End Step.

(** The value [r] returned by a call. *)
Definition creturns (c : ccall W) (M M' : list row_map) (r : nat) : Prop :=
  match c with
  | CInsert i _ _ | CInserts i _ => forall S S' n n', nth_error M i = Some S -> nth_error M' i = Some S' ->
      cardinal S n -> cardinal S' n' -> n' = n + r
  | CRemove i _ | CRemoves i _ => forall S S' n n', nth_error M i = Some S -> nth_error M' i = Some S' ->
      cardinal S n -> cardinal S' n' -> n = n' + r
  | _ => r = 0
  end.
End Spec.
