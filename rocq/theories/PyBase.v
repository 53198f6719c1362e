(** What the methods of src/python have in common: arguments, results and errors.

    Python's side is given by its documented behaviour: PyArg_ParseTuple with "L" or "l" takes integers of 64 bits
    and raises OverflowError for others, the interpreter adds the length to a negative index before it calls
    sq_item or sq_ass_item. An exception is its class; the texts are not modelled. *)
From Coq Require Import List Arith ZArith Bool.
From Verif Require Import Base.
Import ListNotations.
Set Implicit Arguments.
Unset Strict Implicit.

(** [ESystem]: what the interpreter raises when a method returns a result although an exception is set *)
Inductive perr : Type := ERuntime | EIndex | EType | EValue | EOverflow | ESystem | EOther.

(** pythonHelpers.hpp:130-136 PyModify *)
Definition READ_ONLY : Z := 0.
Definition MODIFIABLE : Z := 1.
Definition RESIZEABLE : Z := 2.

(** The range of long long, and of long and Py_ssize_t on the supported platforms *)
Definition in_ll (z : Z) : bool := ((- 2 ^ 63 <=? z) && (z <? 2 ^ 63))%Z.
(** The range of int *)
Definition in_int (z : Z) : bool := ((- 2 ^ 31 <=? z) && (z <? 2 ^ 31))%Z.

(** The object behind a pointer which should not be null *)
Definition deref {X} (p : option X) : outcome X := match p with Some a => Ok a | None => Fault FDangling end.

Section Parse.
Variable V : Type.
(** [safe]: PyArray_CanCastSafely; [conv]: PyArray_Cast of one element. Types are NumPy type numbers. *)
Variable safe : nat -> nat -> bool.
Variable conv : nat -> nat -> V -> V.

(** An array as PyArray_Converter returns it: number of dimensions, PyArray_ISCARRAY (contiguous, aligned, writeable,
    native byte order), type and elements *)
Record npy : Type := mkN { n_dims : nat; n_carray : bool; n_type : nat; n_vals : list V }.
(** numpyHelpers.cpp:233-272 parseNumPyArray; [None]: the conversion to an array raises. Allocation failure in
    PyArray_Cast, whose result is not checked, is not modelled. *)
Definition parseNumPyArray (expected : nat) (obj : option npy) : list V + perr :=
  match obj with
  | None => inr EOther
  | Some x =>
      if 1 <? n_dims x then inr ERuntime
      else if negb (n_carray x) then inr ERuntime
      else if n_type x =? expected then inl (n_vals x)
      else if negb (safe (n_type x) expected) then inr EType
      else inl (map (conv (n_type x) expected) (n_vals x))
  end.
End Parse.

(** * Element types *)
(** The types numpyHelpers.cpp:44-111 getNumPyType and 275-336 getTypeIndexFromNumPy know. *)
Inductive ctype : Type :=
| CChar | CSChar | CUChar | CShort | CUShort | CInt | CUInt | CLong | CULong | CLongLong | CULongLong
| CFloat | CDouble | CLongDouble | CPyObject | COtherType.
(** NPY_BOOL = 0 ... in the order of enum NPY_TYPES; NPY_NOTYPE is [None]. *)
Inductive ntype : Type :=
| NBool | NByte | NUByte | NShort | NUShort | NInt | NUInt | NLong | NULong | NLongLong | NULongLong
| NFloat | NDouble | NLongDouble | NObject | NOtherType.
(** [char_signed]: std::is_signed< char > *)
Definition getNumPyType (char_signed : bool) (t : ctype) : option ntype :=
  match t with
  | CChar => Some (if char_signed then NByte else NUByte)
  | CSChar => Some NByte | CUChar => Some NUByte | CShort => Some NShort | CUShort => Some NUShort
  | CInt => Some NInt | CUInt => Some NUInt | CLong => Some NLong | CULong => Some NULong
  | CLongLong => Some NLongLong | CULongLong => Some NULongLong
  | CFloat => Some NFloat | CDouble => Some NDouble | CLongDouble => Some NLongDouble
  | CPyObject => Some NObject
  | COtherType => None
  end.
(** [None]: typeid( nullptr ) *)
Definition getTypeIndexFromNumPy (t : ntype) : option ctype :=
  match t with
  | NByte => Some CSChar | NUByte => Some CUChar | NShort => Some CShort | NUShort => Some CUShort
  | NInt => Some CInt | NUInt => Some CUInt | NLong => Some CLong | NULong => Some CULong
  | NLongLong => Some CLongLong | NULongLong => Some CULongLong
  | NFloat => Some CFloat | NDouble => Some CDouble | NLongDouble => Some CLongDouble
  | _ => None
  end.
