(** ArrayOfArrays with ChaiBuffers: the three buffers of AoA.v in two memory spaces (Spaces.v).

    The plain member is m_numArrays, the buffers are m_offsets, m_sizes and m_values. Values are trivially copyable;
    a slot of a buffer is an index or a value, or holds nothing defined. *)
From Coq Require Import List Arith Bool.
From Verif Require Import Base Mem BufferManip AoA Spaces.
Import ListNotations.
Set Implicit Arguments.

Section SpacesAoA.
Variable V : Type.
Variable chk : bool.   (* LVARRAY_BOUNDS_CHECK *)
Variable dflt : V.     (* T() *)
Notation aoa := (aoa V unit).
Notation slot := (option (nat + V)).
Notation contents := (contents (nat + V)).
Notation astep := (@astep V unit chk true true false BMalloc dflt).

(** ** The members seen as contents of buffers *)
Definition put_index (c : cell nat) : slot := match c with Obj n => Some (inl n) | _ => None end.
Definition get_index (s : slot) : cell nat := match s with Some (inl n) => Obj n | _ => Raw end.
Definition put_value (c : cell V) : slot := match c with Obj v => Some (inr v) | _ => None end.
Definition get_value (s : slot) : cell V := match s with Some (inr v) => Obj v | _ => Raw end.
(** ArrayOfArraysView.hpp:955-968 *)
Definition stored (a : aoa) : contents := [map put_index (offs a); map put_index (szs a); map put_value (vals a)].
Definition loaded (n : nat) (cs : contents) : outcome aoa :=
  match cs with
  | [o; s; v] => Ok (mkAoA n (map get_index o) (map get_index s) (map get_value v) [])
  | _ => Fault FOob
  end.

(** All values of all inner arrays, read with sizeOfArray and operator(), ArrayOfArraysView.hpp:329-333, 418-422. *)
Fixpoint read_row (a : aoa) (i j k : nat) : outcome (list V) :=
  match k with 0 => Ok [] | S k' => v <- aoa_at chk a i j ;; vs <- read_row a i (S j) k' ;; Ok (v :: vs) end.
Fixpoint read_rows (a : aoa) (i k : nat) : outcome (list (list V)) :=
  match k with
  | 0 => Ok []
  | S k' => s <- sizeOfArray chk a i ;; r <- read_row a i 0 s ;; rs <- read_rows a (S i) k' ;; Ok (r :: rs)
  end.
Definition read_all (a : aoa) : outcome (list (list V)) := read_rows a 0 (numArrays a).

(** ** Which buffers a method of the owning class touches on the host *)
Definition capacity_is (a : aoa) (i : nat) (p : nat -> bool) : bool :=
  match capacityOfArray chk a i with Ok c => p c | _ => false end.
(** ArrayOfArrays.hpp:474-483 dynamicallyGrowArray calls setCapacityOfArray with a larger capacity *)
Definition grows (a : aoa) (i inc : nat) : bool :=
  match sizeOfArray chk a i with Ok s => capacity_is a i (fun c => c <? s + inc) | _ => false end.
(** m_offsets.registerTouch( host ): ArrayOfArraysView.hpp:937-941 at the end of a setCapacityOfArray that changes the
    capacity, and bufferManipulation.hpp:272-286 resize. *)
Definition touches_offsets (c : acall V) (a : aoa) : bool :=
  match c with
  | AResize _ _ => true
  | AResizeFromCapacities _ | AReserve _ | AReserveValues _ | ACompress | AEraseFrom _ _ _ | AClearArray _ | ASet _ _ _ => false
  | AAppend n => 0 <? n
  | AAppendFrom vs | AInsertArray _ vs => 0 <? length vs
  | AEraseArray i => capacity_is a i (fun c => negb (c =? 0))
  | AEmplaceBack i _ | AEmplace i _ _ => grows a i 1
  | AAppendTo i vs | AInsertInto i _ vs => grows a i (length vs)
  | AResizeArray i n _ => capacity_is a i (fun c => c <? n)
  | ASetCapacity i n => capacity_is a i (fun c => negb (c =? n))
  end.
(** m_sizes.registerTouch( host ): bufferManipulation.hpp:272-286 resize to more than nothing. *)
Definition touches_sizes (c : acall V) : bool := match c with AResize n _ => 0 <? n | _ => false end.
(** A touch of a buffer without memory sets flags nothing looks at (ChaiBuffer.hpp:281-283 makes a new record, 400-404 returns). *)
Definition touched (t : bool) {X} (b : list X) : bool := (t && negb (length b =? 0))%bool.

(** ** Programs *)
(** ArrayOfArrays.hpp:96-99 toView, 118-121 toViewConstSizes, 140-143 toViewConst: which buffers are not const. *)
Inductive vkind : Type := ToView | ToViewConstSizes | ToViewConst.
Definition vmask (k : vkind) : list bool :=
  match k with ToView => [false; true; true] | ToViewConstSizes => [false; false; true] | ToViewConst => [false; false; false] end.
(** The calls on the captured view in a kernel. The members of the owning class are not there; those which change the sizes
    do not compile for const sizes, writing does not compile for const values. *)
Definition vcompiles (k : vkind) (c : acall V) : bool :=
  match k, c with
  | ToView, (AEmplaceBack _ _ | AAppendTo _ _ | AEmplace _ _ _ | AInsertInto _ _ _ | AEraseFrom _ _ _) => true
  | (ToView | ToViewConstSizes), ASet _ _ _ => true
  | _, _ => false
  end.
(** ArrayOfArraysView.hpp:418-422, 441-449, 484-492, 505-513, 527-539, 548-555 *)
Definition vstep (c : acall V) (a : aoa) : outcome aoa :=
  match c with
  | AEmplaceBack i v => v_emplaceBack chk true a i v
  | AAppendTo i vs => v_appendToArray chk true a i vs
  | AEmplace i j v => v_emplace chk true a i j v
  | AInsertInto i j vs => v_insertIntoArray chk true a i j vs
  | AEraseFrom i j n => eraseFromArray chk true a i j n
  | ASet i j v => aoa_set chk true a i j v
  | _ => Fault FOob
  end.
Fixpoint vrun (cs : list (acall V)) (a : aoa) : outcome aoa :=
  match cs with [] => Ok a | c :: cs' => a' <- vstep c a ;; vrun cs' a' end.

Inductive uop : Type :=
| UCall (c : acall V)                                      (* a method of the owning class *)
| URead                                                    (* read everything on the host *)
| UKernel (s : nat) (k : vkind) (cs : list (acall V))      (* the calls on a captured view in space s, then read everything there *)
| UDirect (s : nat) (k : vkind) (cs : list (acall V))      (* the same with a view which was not captured *)
| UMove (s : nat) (touch : bool)
| UTouch (s : nat).

Definition host_call (c : acall V) (n : nat) (cs : contents) : outcome (nat * contents * list bool * option (list (list V))) :=
  a <- loaded n cs ;;
  a' <- astep c a ;;
  Ok (numArrays a', stored a', [touched (touches_offsets c a) (offs a'); touched (touches_sizes c) (szs a'); false], None).
Definition host_read (n : nat) (cs : contents) : outcome (nat * contents * list bool * option (list (list V))) :=
  a <- loaded n cs ;; rs <- read_all a ;; Ok (n, cs, [false; false; false], Some rs).
Definition kernel (calls : list (acall V)) (n : nat) (cs : contents) : outcome (contents * option (list (list V))) :=
  a <- loaded n cs ;; a' <- vrun calls a ;; rs <- read_all a' ;; Ok (stored a', Some rs).
Definition op_of (u : uop) : sop (nat + V) nat (option (list (list V))) :=
  match u with
  | UCall c => SHost (host_call c)
  | URead => SHost host_read
  | UKernel s k cs => SKernel s (vmask k) (kernel cs)
  | UDirect s k cs => SDirect s (vmask k) (kernel cs)
  | UMove s touch => SMove s touch
  | UTouch s => STouch s
  end.
(** ArrayOfArraysView.hpp:581-590: move( device, true ) does not touch m_offsets. *)
Definition aoa_dev : list bool := [false; true; true].
(** ArrayOfArrays.hpp:55-60: the constructor makes the three buffers and calls resize. *)
Definition aoa_program (n cap : nat) (us : list uop) : outcome (obj (nat + V) nat * list (option (list (list V)))) :=
  space_run aoa_dev (map op_of (UCall (AResize n cap) :: us)) (new_obj (nat + V) aoa_dev 0).
End SpacesAoA.
Arguments UMove {V}. Arguments UTouch {V}. Arguments URead {V}.
