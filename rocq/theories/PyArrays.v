(** Model of src/python/PyArrayOfArrays.cpp and of the wrapper in PyArrayOfArrays.hpp: the methods of
    pylvarray.ArrayOfArrays as Python calls them.

    integerConversion to INDEX_TYPE is left out where the value was compared with a size, which is an INDEX_TYPE.
    repr, dtype, and the sequence operations + and * (which return NotImplemented) are not modelled. A NumPy view is
    given by the values it shows when it is made. *)
From Coq Require Import List Arith ZArith Bool.
From Verif Require Import Base Mem BufferManip AoA OwnRange PyBase.
Import ListNotations.
Set Implicit Arguments.
Unset Strict Implicit.

(** What a method returns: None, an integer, a view, the views of an iteration, an exception. *)
Inductive pres (V : Type) : Type :=
| PNone | PInt (z : Z) | PView (writeable : bool) (vs : list V) | PViews (l : list (bool * list V)) | PRaise (e : perr).
Arguments PNone {V}. Arguments PInt {V} z. Arguments PRaise {V} e.

(** The [values] of insert and insert_into: an object other than a view of this array, or the row view a[ k ]. *)
Inductive pvals (V : Type) : Type := PForeign (obj : option (npy V)) | POwnRow (k : Z).
Arguments POwnRow {V} k.

Inductive pcall (V : Type) : Type :=
| PLen                                              (* len( a ) *)
| PGet (i : Z)                                      (* a[ i ] *)
| PIter                                             (* list( a ) *)
| PDel (i : Z)                                      (* del a[ i ] *)
| PSetItem (i : Z)                                  (* a[ i ] = x *)
| PSetElem (i j : Z) (v : V)                        (* a[ i ][ j ] = v *)
| PInsertInto (array index : Z) (values : pvals V)
| PInsert (index : Z) (values : pvals V)
| PEraseFrom (array index : Z)
| PGetLevel
| PSetLevel (level : Z).
Arguments PLen {V}. Arguments PGet {V} i. Arguments PIter {V}. Arguments PDel {V} i. Arguments PSetItem {V} i.
Arguments PEraseFrom {V} array index. Arguments PGetLevel {V}. Arguments PSetLevel {V} level.

Section PyAoA.
Variable V : Type.
Variable chk : bool.
(** Only arithmetic types are exported (numpyHelpers.hpp:47 canExportToNumpy). *)
Let tv := true.
Variable safe : nat -> nat -> bool.
Variable conv : nat -> nat -> V -> V.
(** The NumPy type of T *)
Variable vtype : nat.

(** PyArrayOfArrays.cpp:53 struct PyArrayOfArrays and PyArrayOfArrays.hpp:151 m_accessLevel; [None]: no wrapper, as in
    an object made with pylvarray.ArrayOfArrays() *)
Record pyaoa : Type := mkPA { pa_array : option (aoa V unit); pa_level : Z }.
Definition start_level : Z := READ_ONLY.

Definition raise (s : pyaoa) (e : perr) : outcome (pyaoa * pres V) := Ok (s, PRaise e).
Definition with_array (s : pyaoa) (a : aoa V unit) : pyaoa := mkPA (Some a) (pa_level s).

(** The values a view of [n] elements of inner array [i] shows *)
Fixpoint read_row (a : aoa V unit) (i j n : nat) : outcome (list V) :=
  match n with O => Ok [] | S n' => v <- aoa_at chk a i j ;; vs <- read_row a i (j + 1) n' ;; Ok (v :: vs) end.
(** PyArrayOfArrays.hpp:215-223 operator[] *)
Definition view (a : aoa V unit) (level : Z) (i : nat) : outcome (bool * list V) :=
  _ <- check_array chk a i ;;
  n <- sizeOfArray chk a i ;;
  vs <- read_row a i 0 n ;;
  Ok ((MODIFIABLE <=? level)%Z, vs).

(** PyArrayOfArrays.cpp:87-91 len *)
Definition py_len (s : pyaoa) : option Z :=
  match pa_array s with Some a => Some (Z.of_nat (numArrays a)) | None => None end.
(** What the interpreter does with an index before sq_item or sq_ass_item is called (PySequence_GetItem,
    PySequence_SetItem, PySequence_DelItem) *)
Definition seq_index (s : pyaoa) (i : Z) : Z + perr :=
  if negb (in_ll i) then inr EIndex
  else if (i <? 0)%Z then match py_len s with Some n => inl (i + n)%Z | None => inr ERuntime end
  else inl i.
(** 93-108 getitem *)
Definition py_getitem (s : pyaoa) (i : Z) : outcome (pyaoa * pres V) :=
  match pa_array s with
  | None => raise s ERuntime
  | Some a =>
      if ((i <? 0) || (Z.of_nat (numArrays a) <=? i))%Z then raise s EIndex
      else '(w, vs) <- view a (pa_level s) (Z.to_nat i) ;; Ok (s, PView w vs)
  end.
(** 110-137 delitem; [val]: whether a value is assigned. There is no check for a missing wrapper. *)
Definition py_delitem (s : pyaoa) (i : Z) (val : bool) : outcome (pyaoa * pres V) :=
  a <- deref (pa_array s) ;;
  if (pa_level s <? RESIZEABLE)%Z then raise s ERuntime
  else if val then raise s EType
  else if ((i <? 0) || (Z.of_nat (numArrays a) <=? i))%Z then raise s EIndex
  else a' <- eraseArray chk tv true false BMalloc a (Z.to_nat i) ;; Ok (with_array s a', PNone).
(** The value of the expression passed as [values], which is evaluated before the call: an object, or a view of
    inner array [k] of [n] elements *)
Inductive parg : Type := AObj (obj : option (npy V)) | ARow (k : nat) (writeable : bool) (n : nat).
Definition eval_arg (s : pyaoa) (values : pvals V) : outcome (parg + perr) :=
  match values with
  | PForeign obj => Ok (inl (AObj obj))
  | POwnRow i =>
      match seq_index s i with
      | inr e => Ok (inr e)
      | inl i' =>
          '(_, r) <- py_getitem s i' ;;
          match r with
          | PView w vs => Ok (inl (ARow (Z.to_nat i') w (length vs)))
          | PRaise e => Ok (inr e)
          | _ => Ok (inr EOther)
          end
      end
  end.
(** parseNumPyArray and the call of the wrapper. A row view has the type of the array and is contiguous, it is
    accepted, without a copy, if it is writeable. *)
Definition with_values (s : pyaoa) (x : parg)
  (foreign : list V -> outcome (aoa V unit)) (own : nat -> nat -> outcome (aoa V unit)) : outcome (pyaoa * pres V) :=
  match x with
  | AObj obj =>
      match parseNumPyArray safe conv vtype obj with
      | inl vs => a' <- foreign vs ;; Ok (with_array s a', PNone)
      | inr e => raise s e
      end
  | ARow k w n => if negb w then raise s ERuntime else a' <- own k n ;; Ok (with_array s a', PNone)
  end.
(** 159-182 insert_into, PyArrayOfArrays.hpp:257-267. There is no check for a missing wrapper. *)
Definition py_insertInto (s : pyaoa) (array index : Z) (values : parg) : outcome (pyaoa * pres V) :=
  a <- deref (pa_array s) ;;
  if (pa_level s <? RESIZEABLE)%Z then raise s ERuntime
  else if negb (in_ll array && in_ll index) then raise s EOverflow
  else if ((array <? 0) || (Z.of_nat (numArrays a) <=? array) || (index <? 0))%Z then raise s EIndex
  else
    n <- sizeOfArray chk a (Z.to_nat array) ;;
    if (Z.of_nat n <? index)%Z then raise s EIndex
    else with_values s values
      (fun vs => aoa_insertIntoArray chk tv true false BMalloc a (Z.to_nat array) (Z.to_nat index) vs)
      (fun k m => aoa_insertIntoArrayOwn chk tv true false BMalloc a (Z.to_nat array) (Z.to_nat index) k 0 m).
(** 190-211 insert, PyArrayOfArrays.hpp:247-253 *)
Definition py_insert (s : pyaoa) (index : Z) (values : parg) : outcome (pyaoa * pres V) :=
  a <- deref (pa_array s) ;;
  if (pa_level s <? RESIZEABLE)%Z then raise s ERuntime
  else if negb (in_ll index) then raise s EOverflow
  else if ((index <? 0) || (Z.of_nat (numArrays a) <? index))%Z then raise s EIndex
  else with_values s values
    (fun vs => insertArray chk tv true false BMalloc a (Z.to_nat index) vs)
    (fun k m => insertArrayOwn chk tv true false BMalloc a (Z.to_nat index) k 0 m).
(** 217-233 erase_from, PyArrayOfArrays.hpp:237-242 *)
Definition py_eraseFrom (s : pyaoa) (array index : Z) : outcome (pyaoa * pres V) :=
  a <- deref (pa_array s) ;;
  if (pa_level s <? RESIZEABLE)%Z then raise s ERuntime
  else if negb (in_ll array && in_ll index) then raise s EOverflow
  else if ((array <? 0) || (Z.of_nat (numArrays a) <=? array) || (index <? 0))%Z then raise s EIndex
  else
    n <- sizeOfArray chk a (Z.to_nat array) ;;
    if (Z.of_nat n <=? index)%Z then raise s EIndex
    else a' <- eraseFromArray chk tv a (Z.to_nat array) (Z.to_nat index) 1 ;; Ok (with_array s a', PNone).

(** list( a ): sq_item with 0, 1, ... until it raises IndexError *)
Fixpoint py_iter (fuel : nat) (s : pyaoa) (i : Z) : outcome (list (bool * list V) + perr) :=
  match fuel with
  | O => Fault FFuel
  | S f =>
      '(_, r) <- py_getitem s i ;;
      match r with
      | PView w vs =>
          rest <- py_iter f s (i + 1) ;;
          match rest with inl l => Ok (inl ((w, vs) :: l)) | inr e => Ok (inr e) end
      | PRaise EIndex => Ok (inl [])
      | PRaise e => Ok (inr e)
      | _ => Ok (inr EOther)
      end
  end.
(** a[ i ][ j ] = v: NumPy checks whether the view is writeable and the index. *)
Definition py_setElem (s : pyaoa) (i j : Z) (v : V) : outcome (pyaoa * pres V) :=
  match seq_index s i with
  | inr e => raise s e
  | inl i' =>
      '(_, r) <- py_getitem s i' ;;
      match r, pa_array s with
      | PView w vs, Some a =>
          if negb w then raise s EValue
          else if negb (in_ll j) then raise s EIndex
          else
            let j' := if (j <? 0)%Z then (j + Z.of_nat (length vs))%Z else j in
            if ((j' <? 0) || (Z.of_nat (length vs) <=? j'))%Z then raise s EIndex
            else a' <- aoa_set chk tv a (Z.to_nat i') (Z.to_nat j') v ;; Ok (with_array s a', PNone)
      | PRaise e, _ => raise s e
      | _, _ => raise s EOther
      end
  end.

Definition py_step (c : pcall V) (s : pyaoa) : outcome (pyaoa * pres V) :=
  match c with
  | PLen => match py_len s with Some n => Ok (s, PInt n) | None => raise s ERuntime end
  | PGet i => match seq_index s i with inl i' => py_getitem s i' | inr e => raise s e end
  | PIter =>
      r <- py_iter (match pa_array s with Some a => numArrays a + 1 | None => 1 end) s 0 ;;
      match r with inl l => Ok (s, PViews l) | inr e => raise s e end
  | PDel i => match seq_index s i with inl i' => py_delitem s i' false | inr e => raise s e end
  | PSetItem i => match seq_index s i with inl i' => py_delitem s i' true | inr e => raise s e end
  | PSetElem i j v => py_setElem s i j v
  | PInsertInto array index values =>
      x <- eval_arg s values ;; match x with inl v => py_insertInto s array index v | inr e => raise s e end
  | PInsert index values =>
      x <- eval_arg s values ;; match x with inl v => py_insert s index v | inr e => raise s e end
  | PEraseFrom array index => py_eraseFrom s array index
  (* 240-249 getAccessLevel, 255-268 setAccessLevel *)
  | PGetLevel => match pa_array s with Some _ => Ok (s, PInt (pa_level s)) | None => raise s ERuntime end
  | PSetLevel l =>
      match pa_array s with
      | Some a => if in_int l then Ok (mkPA (Some a) l, PNone) else raise s EOverflow
      | None => raise s ERuntime
      end
  end.
Fixpoint py_run (h : list (pcall V)) (s : pyaoa) : outcome (pyaoa * list (pres V)) :=
  match h with
  | [] => Ok (s, [])
  | c :: h' => '(s1, r) <- py_step c s ;; '(s2, rs) <- py_run h' s1 ;; Ok (s2, r :: rs)
  end.
End PyAoA.
