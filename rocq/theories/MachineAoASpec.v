(** When a program on an array of arrays stays in the range of the index type: in terms of the numbers of
    inner vectors and their capacities only. *)
From Coq Require Import List Arith Bool.
From Verif Require Import AoA AoASpec.
Import ListNotations.
Set Implicit Arguments.
Unset Strict Implicit.

Section Spec.
Variable V : Type.
Variable dflt : V.
Variable hi : nat.
Implicit Types (M : list (list V)) (K : list nat).

(** One number more than there are inner vectors can be represented. *)
Definition rows_fit M : bool := length M + 1 <=? hi.
(** The sum of the capacities can be represented. *)
Definition caps_fit K : bool := list_sum K <=? hi.
(** The argument of reserve leaves room for one more; other arguments are values of the type anyway. *)
Definition arg_fits (c : acall V) : bool := match c with AReserve n => n + 1 <=? hi | _ => true end.

(** So after every call of the program. *)
Fixpoint rows_stay (h : list (acall V)) M : bool :=
  match h with
  | [] => true
  | c :: h' => match vec_step dflt c M with
               | Some M' => arg_fits c && rows_fit M' && rows_stay h' M'
               | None => true
               end
  end.
Fixpoint caps_stay (h : list (acall V)) M K : bool :=
  match h with
  | [] => true
  | c :: h' => match vec_step dflt c M with
               | Some M' => caps_fit (cap_step c M K) && caps_stay h' M' (cap_step c M K)
               | None => true
               end
  end.

(** Calls which only add elements or change values, and do not ask for a capacity. *)
Definition adds (c : acall V) : bool :=
  match c with
  | AReserve _ | AReserveValues _ | ACompress | AAppend _ | AAppendFrom _ | AInsertArray _ _
  | AEmplaceBack _ _ | AAppendTo _ _ | AEmplace _ _ _ | AInsertInto _ _ _ | ASet _ _ _ => true
  | _ => false
  end.
(** The number of elements. *)
Definition elements M : nat := list_sum (map (@length V) M).
End Spec.
