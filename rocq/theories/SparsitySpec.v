(** What the calls on a SparsityPattern mean: a vector of sets of columns and a number of columns. *)
From Coq Require Import List Arith ZArith.
From Verif Require Import SortedSpec SortedArraySpec AoASpec AoSSpec Sparsity.
Import ListNotations.
Set Implicit Arguments.
Unset Strict Implicit.

Definition col_set : Type := Z -> Prop.
Definition pat_state : Type := (list col_set * nat)%type.
Definition in_range (nc : nat) (x : Z) : Prop := (0 <= x < Z.of_nat nc)%Z.

(** What the caller has to respect: columns within range, sorted ranges without duplicates
    (SparsityPattern.hpp:335, SparsityPatternView.hpp:372), no resize which cuts off columns in use
    (SparsityPattern.hpp:284-287). *)
Definition pallowed (c : pcall) (st : pat_state) : Prop :=
  match c with
  | PResize nr nc _ => forall S x, In S (firstn nr (fst st)) -> S x -> in_range nc x
  | PInsert _ col | PRemove _ col => in_range (snd st) col
  | PInserts _ cols | PRemoves _ cols => increasing Z.ltb cols /\ Forall (in_range (snd st)) cols
  | _ => True
  end.

Section Step.
Variable cmax : Z.
(** [None] when a row does not exist or COL_TYPE cannot hold the columns. *)
Definition pat_step (c : pcall) (st : pat_state) : option pat_state :=
  let '(M, nc) := st in
  let keep_cols o := match o with Some M' => Some (M', nc) | None => None end in
  match c with
  | PResize nr nc' _ => if (cmax <? Z.of_nat nc' - 1)%Z then None else Some (resized_to M nr none, nc')
  | PResizeFromRowCapacities nc' caps => if (cmax <? Z.of_nat nc' - 1)%Z then None else Some (map (fun _ => none) caps, nc')
  | PReserveRows _ | PReserveNonZeros _ | PCompress => Some st
  | PReserveRow row _ => keep_cols (on_elem M row (fun S => S))
  | PSetRowCapacity row c => keep_cols (on_elem M row (smallest Z.lt c))
  | PAppendRow _ => Some (M ++ [none], nc)
  | PInsert row col => keep_cols (on_elem M row (fun S x => x = col \/ S x))
  | PInserts row cols => keep_cols (on_elem M row (fun S x => In x cols \/ S x))
  | PRemove row col => keep_cols (on_elem M row (fun S x => S x /\ x <> col))
  | PRemoves row cols => keep_cols (on_elem M row (fun S x => S x /\ ~ In x cols))
  end.
Fixpoint pat_run (h : list pcall) (st : pat_state) : option pat_state :=
  match h with [] => Some st | c :: h' => match pat_step c st with Some st' => pat_run h' st' | None => None end end.
(** Every call of the history respects [pallowed]. *)
Fixpoint pvalid (h : list pcall) (st : pat_state) : Prop :=
  match h with
  | [] => True
  | c :: h' => pallowed c st /\ match pat_step c st with Some st' => pvalid h' st' | None => True end
  end.
End Step.

(** The value [r] returned by a call. *)
Definition preturns (c : pcall) (M M' : list col_set) (r : nat) : Prop :=
  match c with
  | PInsert i _ | PInserts i _ => forall S S' n n', nth_error M i = Some S -> nth_error M' i = Some S' ->
      cardinal S n -> cardinal S' n' -> n' = n + r
  | PRemove i _ | PRemoves i _ => forall S S' n n', nth_error M i = Some S -> nth_error M' i = Some S' ->
      cardinal S n -> cardinal S' n' -> n = n' + r
  | _ => r = 0
  end.
