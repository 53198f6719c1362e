(** When a program on an ArrayOfSets, a SparsityPattern or a CRSMatrix stays in the range of an index type
    with largest value [hi]: in terms of the numbers of rows and columns, of elements, and of the capacities
    asked for. [N] bounds the number of rows, [Q] what is asked for. *)
From Coq Require Import List Arith ZArith.
From Verif Require Import SortedSpec SortedArraySpec AoASpec AoS AoSSpec Sparsity SparsitySpec CRS CRSSpec.
Import ListNotations.
Set Implicit Arguments.
Unset Strict Implicit.

Section Spec.
Variable hi N Q : nat.

(** The arguments of the calls: capacities of rows at most [Q], and a number of rows to reserve of which one
    more can be represented. *)
Definition t_asks {V} (c : tcall V) : Prop :=
  match c with
  | TResize _ cap | TAppendSet cap | TInsertSet _ cap | TSetCapacity _ cap | TReserveCapacity _ cap => cap <= Q
  | TResizeFromCapacities caps => Forall (fun c => c <= Q) caps
  | TReserve n => n + 1 <= hi
  | _ => True
  end.
(** At most [N] sets of at most half of [Q] elements. *)
Definition halves {V} (M : list (V -> Prop)) : Prop :=
  length M <= N /\ Forall (fun S => forall n, cardinal S n -> 2 * n <= Q) M.
Fixpoint t_within {V} (lt : V -> V -> bool) (h : list (tcall V)) (M : list (V -> Prop)) : Prop :=
  match h with
  | [] => True
  | c :: h' => match set_step lt c M with
               | Some M' => t_asks c /\ halves M' /\ t_within lt h' M'
               | None => True
               end
  end.

(** The capacities of single rows asked of a SparsityPattern or CRSMatrix with reserveNonZeros and
    setRowCapacity are cut down to the number of columns by the code, those asked of resize and
    resizeFromRowCapacities are not. *)
Definition p_asks (c : pcall) : Prop :=
  match c with
  | PResize _ _ cap => cap <= Q
  | PResizeFromRowCapacities _ caps => Forall (fun c => c <= Q) caps
  | PReserveRows n => n + 1 <= hi
  | _ => True
  end.
(** At most [N] rows of at most [Q] columns. *)
Definition inside {X} (st : list X * nat) : Prop := length (fst st) <= N /\ snd st <= Q.
Fixpoint p_within (cmax : Z) (h : list pcall) (st : pat_state) : Prop :=
  match h with
  | [] => True
  | c :: h' => match pat_step cmax c st with
               | Some st' => p_asks c /\ inside st' /\ p_within cmax h' st'
               | None => True
               end
  end.

Definition c_asks {W} (c : ccall W) : Prop :=
  match c with
  | CResize _ _ cap => cap <= Q
  | CResizeFromRowCapacities _ caps => Forall (fun c => c <= Q) caps
  | _ => True
  end.
Fixpoint c_within {W} (add : W -> W -> W) (zero : W) (cmax : Z) (h : list (ccall W)) (st : mat_state W) : Prop :=
  match h with
  | [] => True
  | c :: h' => match mat_step add zero cmax c st with
               | Some st' => c_asks c /\ inside st' /\ c_within add zero cmax h' st'
               | None => True
               end
  end.
End Spec.
