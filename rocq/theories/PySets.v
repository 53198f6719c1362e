(** Model of src/python/PySortedArray.cpp, PyArrayOfSets.cpp and their wrappers in the headers: the methods of
    pylvarray.SortedArray and pylvarray.ArrayOfSets as Python calls them. The simplifications of PyArrays.v apply. *)
From Coq Require Import List Arith ZArith Bool.
From Verif Require Import Base Mem BufferManip Sorted SortedArray AoA AoS PyBase PyArrays.
Import ListNotations.
Set Implicit Arguments.
Unset Strict Implicit.

(** * SortedArray *)
(** The argument [values]: an object, or the view s.to_numpy() *)
Inductive qvals (V : Type) : Type := QObj (obj : option (npy V)) | QOwn.
Arguments QOwn {V}.
Inductive qcall (V : Type) : Type :=
| QInsert (values : qvals V) | QRemove (values : qvals V) | QToNumPy | QGetLevel | QSetLevel (level space : Z).
Arguments QToNumPy {V}. Arguments QGetLevel {V}. Arguments QSetLevel {V} level space.

Section PySorted.
Variable V : Type.
Variable chk : bool.
Variable lt eqb : V -> V -> bool.
Variable safe : nat -> nat -> bool.
Variable conv : nat -> nat -> V -> V.
Variable vtype : nat.
(** static_cast< int >( LvArray::MemorySpace::host ) *)
Variable host : Z.

(** PySortedArray.cpp:54 struct PySortedArray and PySortedArray.hpp:118 m_accessLevel *)
Record pysorted : Type := mkPS { ps_set : option (sarray V); ps_level : Z }.
Definition qraise (s : pysorted) (e : perr) : outcome (pysorted * pres V) := Ok (s, PRaise e).
(** The values a view of the first [n] elements of the buffer shows *)
Fixpoint read_values (b : buf V) (i n : nat) : outcome (list V) :=
  match n with O => Ok [] | S n' => v <- rd b i ;; vs <- read_values b (i + 1) n' ;; Ok (v :: vs) end.
(** 148-156 to_numpy, PySortedArray.hpp:183-188: the view is not writeable. *)
Definition q_toNumPy (s : pysorted) : outcome (pysorted * pres V) :=
  match ps_set s with
  | None => qraise s ERuntime
  | Some a => vs <- read_values (s_buf a) 0 (s_size a) ;; Ok (s, PView false vs)
  end.
(** The argument as parseNumPyArray gets it. PyArray_ISCARRAY is false for the own view, which is not writeable. *)
Definition q_arg (s : pysorted) (values : qvals V) : outcome (option (npy V) + perr) :=
  match values with
  | QObj obj => Ok (inl obj)
  | QOwn =>
      '(_, r) <- q_toNumPy s ;;
      match r with
      | PView w vs => Ok (inl (Some (mkN 1 w vtype vs)))
      | PRaise e => Ok (inr e)
      | _ => Ok (inr EOther)
      end
  end.
(** 91-111 insert and 120-140 remove, PySortedArray.hpp:169-180; [f]: the member of SortedArray *)
Definition q_change (f : sarray V -> list V -> outcome (sarray V * nat)) (s : pysorted) (values : qvals V) : outcome (pysorted * pres V) :=
  x <- q_arg s values ;;
  match x with
  | inr e => qraise s e
  | inl obj =>
      match ps_set s with
      | None => qraise s ERuntime
      | Some a =>
          if (ps_level s <? RESIZEABLE)%Z then qraise s ERuntime
          else
            match parseNumPyArray safe conv vtype obj with
            | inr e => qraise s e
            | inl vs => '(a', n) <- f a vs ;; Ok (mkPS (Some a') (ps_level s), PInt (Z.of_nat n))
            end
      end
  end.
Definition q_step (c : qcall V) (s : pysorted) : outcome (pysorted * pres V) :=
  match c with
  | QInsert values => q_change (s_inserts chk true BMalloc lt eqb) s values
  | QRemove values => q_change (s_removes chk true BMalloc lt eqb) s values
  | QToNumPy => q_toNumPy s
  (* 162-169 getAccessLevel, 178-196 setAccessLevel *)
  | QGetLevel => match ps_set s with Some _ => Ok (s, PInt (ps_level s)) | None => qraise s ERuntime end
  | QSetLevel level space =>
      match ps_set s with
      | None => qraise s ERuntime
      | Some a =>
          if negb (in_int level && in_int space) then qraise s EOverflow
          else if negb (space =? host)%Z then qraise s EValue
          else Ok (mkPS (Some a) level, PNone)
      end
  end.
Fixpoint q_run (h : list (qcall V)) (s : pysorted) : outcome (pysorted * list (pres V)) :=
  match h with
  | [] => Ok (s, [])
  | c :: h' => '(s1, r) <- q_step c s ;; '(s2, rs) <- q_run h' s1 ;; Ok (s2, r :: rs)
  end.
End PySorted.

(** * ArrayOfSets *)
(** The argument [values]: an object, or the view a[ k ] *)
Inductive tvals (V : Type) : Type := TVObj (obj : option (npy V)) | TVOwn (k : Z).
Arguments TVOwn {V} k.
Inductive ptcall (V : Type) : Type :=
| STLen | STGet (i : Z) | STIter
| STDel (i : Z)                                     (* del a[ i ] *)
| STSetItem (i : Z)                                 (* a[ i ] = x *)
| STSetElem (i j : Z) (v : V)                       (* a[ i ][ j ] = v *)
| STInsertInto (i : Z) (values : tvals V)
| STInsert (i capacity : Z)
| STEraseFrom (i : Z) (values : tvals V)
| STGetLevel
| STSetLevel (level : Z).
Arguments STLen {V}. Arguments STGet {V} i. Arguments STIter {V}. Arguments STDel {V} i. Arguments STSetItem {V} i.
Arguments STInsert {V} i capacity. Arguments STGetLevel {V}. Arguments STSetLevel {V} level.

Section PyAoS.
Variable V : Type.
Variable chk : bool.
Variable lt eqb : V -> V -> bool.
Variable safe : nat -> nat -> bool.
Variable conv : nat -> nat -> V -> V.
Variable vtype : nat.
(** The largest INDEX_TYPE *)
Variable imax : Z.
(** The object is the same pair of a wrapper and an access level as for ArrayOfArrays (PyArrayOfSets.cpp:53,
    PyArrayOfSets.hpp:143). *)
Notation pyaos := (pyaoa V).

(** PyArrayOfSets.hpp:193-201 operator[]: the view is not writeable. *)
Definition set_view (a : aoa V unit) (i : nat) : outcome (bool * list V) :=
  _ <- check_array chk a i ;;
  n <- sizeOfArray chk a i ;;
  vs <- read_row chk a i 0 n ;;
  Ok (false, vs).
(** PyArrayOfSets.cpp:91-106 getitem *)
Definition t_getitem (s : pyaos) (i : Z) : outcome (pyaos * pres V) :=
  match pa_array s with
  | None => raise s ERuntime
  | Some a =>
      if ((i <? 0) || (Z.of_nat (numArrays a) <=? i))%Z then raise s EIndex
      else '(w, vs) <- set_view a (Z.to_nat i) ;; Ok (s, PView w vs)
  end.
(** 108-133 delitem; there is no check for a missing wrapper. *)
Definition t_delitem (s : pyaos) (i : Z) (val : bool) : outcome (pyaos * pres V) :=
  a <- deref (pa_array s) ;;
  if (pa_level s <? RESIZEABLE)%Z then raise s ERuntime
  else if val then raise s EType
  else if ((i <? 0) || (Z.of_nat (numArrays a) <=? i))%Z then raise s EIndex
  else a' <- eraseSet chk true true false BMalloc a (Z.to_nat i) ;; Ok (with_array s a', PNone).
Fixpoint t_iter (fuel : nat) (s : pyaos) (i : Z) : outcome (list (bool * list V) + perr) :=
  match fuel with
  | O => Fault FFuel
  | S f =>
      '(_, r) <- t_getitem s i ;;
      match r with
      | PView w vs =>
          rest <- t_iter f s (i + 1) ;;
          match rest with inl l => Ok (inl ((w, vs) :: l)) | inr e => Ok (inr e) end
      | PRaise EIndex => Ok (inl [])
      | PRaise e => Ok (inr e)
      | _ => Ok (inr EOther)
      end
  end.
(** The argument as parseNumPyArray gets it *)
Definition t_arg (s : pyaos) (values : tvals V) : outcome (option (npy V) + perr) :=
  match values with
  | TVObj obj => Ok (inl obj)
  | TVOwn k =>
      match seq_index s k with
      | inr e => Ok (inr e)
      | inl k' =>
          '(_, r) <- t_getitem s k' ;;
          match r with
          | PView w vs => Ok (inl (Some (mkN 1 w vtype vs)))
          | PRaise e => Ok (inr e)
          | _ => Ok (inr EOther)
          end
      end
  end.
(** 156-182 insert_into, PyArrayOfSets.hpp:234-241 *)
Definition t_insertInto (s : pyaos) (i : Z) (obj : option (npy V)) : outcome (pyaos * pres V) :=
  a <- deref (pa_array s) ;;
  if (pa_level s <? RESIZEABLE)%Z then raise s ERuntime
  else if negb (in_ll i) then raise s EOverflow
  else if ((i <? 0) || (Z.of_nat (numArrays a) <=? i))%Z then raise s EIndex
  else
    match parseNumPyArray safe conv vtype obj with
    | inr e => raise s e
    | inl vs =>
        '(a', n) <- insertsIntoSet chk true true false BMalloc lt eqb a (Z.to_nat i) vs ;;
        Ok (with_array s a', PInt (Z.of_nat n))
    end.
(** 189-210 insert, PyArrayOfSets.hpp:215-220. integerConversion ends the process if INDEX_TYPE cannot hold the
    capacity. *)
Definition t_insert (s : pyaos) (i capacity : Z) : outcome (pyaos * pres V) :=
  a <- deref (pa_array s) ;;
  if (pa_level s <? RESIZEABLE)%Z then raise s ERuntime
  else if negb (in_ll i && in_ll capacity) then raise s EOverflow
  else if ((i <? 0) || (Z.of_nat (numArrays a) <? i))%Z then raise s EIndex
  else if (capacity <? 0)%Z then raise s EValue
  else if (imax <? capacity)%Z then Abort
  else a' <- insertSet chk true true false BMalloc a (Z.to_nat i) (Z.to_nat capacity) ;; Ok (with_array s a', PNone).
(** 220-242 erase_from, PyArrayOfSets.hpp:223-230. The result of parseNumPyArray is not checked: after a failure
    no values are removed and 0 is returned although an exception is set. *)
Definition t_eraseFrom (s : pyaos) (i : Z) (obj : option (npy V)) : outcome (pyaos * pres V) :=
  a <- deref (pa_array s) ;;
  if (pa_level s <? RESIZEABLE)%Z then raise s ERuntime
  else if negb (in_ll i) then raise s EOverflow
  else if ((i <? 0) || (Z.of_nat (numArrays a) <=? i))%Z then raise s EIndex
  else
    let parsed := parseNumPyArray safe conv vtype obj in
    let vs := match parsed with inl vs => vs | inr _ => [] end in
    '(a', n) <- removesFromSet chk true lt eqb a (Z.to_nat i) vs ;;
    Ok (with_array s a', match parsed with inl _ => PInt (Z.of_nat n) | inr _ => PRaise ESystem end).
(** a[ i ][ j ] = v *)
Definition t_setElem (s : pyaos) (i j : Z) (v : V) : outcome (pyaos * pres V) :=
  match seq_index s i with
  | inr e => raise s e
  | inl i' =>
      '(_, r) <- t_getitem s i' ;;
      match r with
      | PView false _ => raise s EValue
      | PRaise e => raise s e
      | _ => raise s EOther
      end
  end.
Definition t_step (c : ptcall V) (s : pyaos) : outcome (pyaos * pres V) :=
  match c with
  | STLen => match py_len s with Some n => Ok (s, PInt n) | None => raise s ERuntime end
  | STGet i => match seq_index s i with inl i' => t_getitem s i' | inr e => raise s e end
  | STIter =>
      r <- t_iter (match pa_array s with Some a => numArrays a + 1 | None => 1 end) s 0 ;;
      match r with inl l => Ok (s, PViews l) | inr e => raise s e end
  | STDel i => match seq_index s i with inl i' => t_delitem s i' false | inr e => raise s e end
  | STSetItem i => match seq_index s i with inl i' => t_delitem s i' true | inr e => raise s e end
  | STSetElem i j v => t_setElem s i j v
  | STInsertInto i values => x <- t_arg s values ;; match x with inl obj => t_insertInto s i obj | inr e => raise s e end
  | STInsert i capacity => t_insert s i capacity
  | STEraseFrom i values => x <- t_arg s values ;; match x with inl obj => t_eraseFrom s i obj | inr e => raise s e end
  (* 248-256 getAccessLevel, 263-275 setAccessLevel *)
  | STGetLevel => match pa_array s with Some _ => Ok (s, PInt (pa_level s)) | None => raise s ERuntime end
  | STSetLevel l =>
      match pa_array s with
      | Some a => if in_int l then Ok (mkPA (Some a) l, PNone) else raise s EOverflow
      | None => raise s ERuntime
      end
  end.
Fixpoint t_run (h : list (ptcall V)) (s : pyaos) : outcome (pyaos * list (pres V)) :=
  match h with
  | [] => Ok (s, [])
  | c :: h' => '(s1, r) <- t_step c s ;; '(s2, rs) <- t_run h' s1 ;; Ok (s2, r :: rs)
  end.
End PyAoS.
