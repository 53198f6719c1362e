(** What the calls on an array of arrays mean: contents as a vector of vectors, capacities as a vector
    of numbers. Nothing here mentions offsets, buffers or memory. *)
From Coq Require Import List Arith Bool.
From Verif Require Import AoA.
Import ListNotations.
Set Implicit Arguments.
Unset Strict Implicit.

Section Spec.
Variable V : Type.
Variable dflt : V.

(** Element [i] replaced by [x]. *)
Definition put_at {X} (l : list X) (i : nat) (x : X) : list X := firstn i l ++ x :: skipn (i + 1) l.
Definition insert_at {X} (l : list X) (i : nat) (x : X) : list X := firstn i l ++ x :: skipn i l.
Definition remove_at {X} (l : list X) (i : nat) : list X := firstn i l ++ skipn (i + 1) l.
(** std::vector::resize *)
Definition resized_to {X} (l : list X) (n : nat) (x : X) : list X := firstn n l ++ repeat x (n - length l).
(** Change inner vector [i], which must exist, with [f]. *)
Definition on_row (M : list (list V)) (i : nat) (f : list V -> option (list V)) : option (list (list V)) :=
  match nth_error M i with
  | Some r => match f r with Some r' => Some (put_at M i r') | None => None end
  | None => None
  end.

(** vector<vector<V>>; [None] when an index is out of range. *)
Definition vec_step (c : acall V) (M : list (list V)) : option (list (list V)) :=
  match c with
  | AResize n _ => Some (resized_to M n [])
  | AResizeFromCapacities caps => Some (map (fun _ => []) caps)
  | AReserve _ | AReserveValues _ | ACompress => Some M
  | AAppend n => Some (M ++ [repeat dflt n])
  | AAppendFrom vs => Some (M ++ [vs])
  | AInsertArray i vs => if i <=? length M then Some (insert_at M i vs) else None
  | AEraseArray i => if i <? length M then Some (remove_at M i) else None
  | AEmplaceBack i v => on_row M i (fun r => Some (r ++ [v]))
  | AAppendTo i vs => on_row M i (fun r => Some (r ++ vs))
  | AEmplace i j v => on_row M i (fun r => if j <=? length r then Some (insert_at r j v) else None)
  | AInsertInto i j vs => on_row M i (fun r => if j <=? length r then Some (firstn j r ++ vs ++ skipn j r) else None)
  | AEraseFrom i j n => on_row M i (fun r => if ((j <? length r) && (j + n <=? length r))%bool
                                             then Some (firstn j r ++ skipn (j + n) r) else None)
  | AResizeArray i n v => on_row M i (fun r => Some (resized_to r n v))
  | AClearArray i => on_row M i (fun _ => Some [])
  | ASetCapacity i c => on_row M i (fun r => Some (firstn c r))
  | ASet i j v => on_row M i (fun r => if j <? length r then Some (put_at r j v) else None)
  end.
Fixpoint vec_run (h : list (acall V)) (M : list (list V)) : option (list (list V)) :=
  match h with [] => Some M | c :: h' => match vec_step c M with Some M' => vec_run h' M' | None => None end end.

(** Capacities. A row of [s] elements and capacity [k] which has to take [inc] more keeps its capacity if
    they fit and otherwise gets twice the new number of elements. *)
Definition grown (s k inc : nat) : nat := if k <? s + inc then 2 * (s + inc) else k.
Definition cap_grow (M : list (list V)) (K : list nat) (i inc : nat) : list nat :=
  put_at K i (grown (length (nth i M [])) (nth i K 0) inc).
Definition cap_step (c : acall V) (M : list (list V)) (K : list nat) : list nat :=
  match c with
  | AResize n cap => resized_to K n cap
  | AResizeFromCapacities caps => caps
  | ACompress => map (@length V) M
  | AAppend n => K ++ [n]
  | AAppendFrom vs => K ++ [2 * length vs]
  | AInsertArray i vs => insert_at K i (2 * length vs)
  | AEraseArray i => remove_at K i
  | AEmplaceBack i _ | AEmplace i _ _ => cap_grow M K i 1
  | AAppendTo i vs | AInsertInto i _ vs => cap_grow M K i (length vs)
  | AResizeArray i n _ => put_at K i (Nat.max (nth i K 0) n)
  | ASetCapacity i c => put_at K i c
  | AReserve _ | AReserveValues _ | AEraseFrom _ _ _ | AClearArray _ | ASet _ _ _ => K
  end.
(** No inner array has unused capacity; [always_full]: so before every call of the history. *)
Definition full (M : list (list V)) (K : list nat) : bool := forallb (fun x => length (fst x) =? snd x) (combine M K).
Fixpoint always_full (h : list (acall V)) (M : list (list V)) (K : list nat) : bool :=
  match h with
  | [] => true
  | c :: h' => (full M K && match vec_step c M with Some M' => always_full h' M' (cap_step c M K) | None => true end)%bool
  end.
Fixpoint cap_run (h : list (acall V)) (M : list (list V)) (K : list nat) : list nat :=
  match h with
  | [] => K
  | c :: h' => match vec_step c M with Some M' => cap_run h' M' (cap_step c M K) | None => K end
  end.
End Spec.
