(** Model of the reference counting in src/python: PyObjectRef (pythonHelpers.hpp:138-259) and the functions
    which hand Python references around.

    Python's side: an object is a number, an index into the heap; it has a reference count and owns the
    references in [items] (the items of a tuple or list, the entries of a module). An object whose count drops
    to zero is deallocated, which gives up the references it owns. Python code run by a deallocation (__del__,
    weak reference callbacks), the cycle collector, immortal objects and the global lock are not modelled.
    A use of a deallocated object is [Fault FDangling]. *)
From Coq Require Import List Arith Lia Bool.
From Verif Require Import Base.
Import ListNotations.
Set Implicit Arguments.
Unset Strict Implicit.

Record pyobj : Type := mkO { cnt : nat; items : list nat }.
Definition heap : Type := list pyobj.
(** T * m_object, [None] is nullptr *)
Definition ptr : Type := option nat.

(** Py_INCREF *)
Definition incref (h : heap) (o : nat) : outcome heap :=
  x <- aget h o ;;
  if cnt x =? 0 then Fault FDangling else Ok (upd h o (mkO (cnt x + 1) (items x))).
(** Py_DECREF of every object of [todo], with the deallocations this leads to. Every step lowers the sum of
    the counts, so that [total h + 1] is enough fuel. *)
Fixpoint drop (fuel : nat) (h : heap) (todo : list nat) : outcome heap :=
  match todo with
  | [] => Ok h
  | o :: rest =>
      match fuel with
      | O => Fault FFuel
      | S f =>
          x <- aget h o ;;
          match cnt x with
          | O => Fault FDangling
          | S O => drop f (upd h o (mkO 0 [])) (items x ++ rest)
          | S n => drop f (upd h o (mkO n (items x))) rest
          end
      end
  end.
Definition total (h : heap) : nat := list_sum (map cnt h).
Definition decref (h : heap) (o : nat) : outcome heap := drop (total h + 1) h [o].
(** pythonHelpers.cpp:35 xincref, 39 xdecref *)
Definition xincref (h : heap) (p : ptr) : outcome heap := match p with Some o => incref h o | None => Ok h end.
Definition xdecref (h : heap) (p : ptr) : outcome heap := match p with Some o => decref h o | None => Ok h end.
(** A function of the Python API which returns a new reference to a new object; the object takes over the
    references [l]. *)
Definition fresh (h : heap) (l : list nat) : heap * nat := (h ++ [mkO 1 l], length h).
(** PyTuple_SET_ITEM, PyModule_AddObject: the container takes over (steals) a reference. *)
Definition steal (h : heap) (c o : nat) : outcome heap :=
  x <- aget h c ;;
  if cnt x =? 0 then Fault FDangling else Ok (upd h c (mkO (cnt x) (items x ++ [o]))).

(** * PyObjectRef *)
(** The variables of a program: [None] has been destroyed. *)
Record pstate : Type := mkP { p_heap : heap; p_vars : list (option ptr) }.
Definition getv (s : pstate) (v : nat) : outcome ptr :=
  x <- aget (p_vars s) v ;; match x with Some p => Ok p | None => Fault FDangling end.
Definition setv (s : pstate) (v : nat) (p : ptr) : pstate := mkP (p_heap s) (upd (p_vars s) v (Some p)).
Definition push (s : pstate) (p : ptr) : pstate := mkP (p_heap s) (p_vars s ++ [Some p]).

(** 190-195 operator=( PyObjectRef const & ) *)
Definition copy_assign (s : pstate) (v w : nat) : outcome pstate :=
  _ <- getv s v ;;
  p <- getv s w ;;
  h <- xincref (p_heap s) p ;;
  Ok (setv (mkP h (p_vars s)) v p).
(** 203-208 operator=( PyObjectRef && ) *)
Definition move_assign (s : pstate) (v w : nat) : outcome pstate :=
  _ <- getv s v ;;
  p <- getv s w ;;
  Ok (setv (setv s v p) w None).
(** 216-222 operator=( PyObject * ) *)
Definition ptr_assign (s : pstate) (v : nat) (p : ptr) : outcome pstate :=
  old <- getv s v ;;
  h <- xdecref (p_heap s) old ;;
  Ok (setv (mkP h (p_vars s)) v p).
(** 181-182 destructor *)
Definition destroy (s : pstate) (v : nat) : outcome pstate :=
  p <- getv s v ;;
  h <- xdecref (p_heap s) p ;;
  vars <- aset (p_vars s) v None ;;
  Ok (mkP h vars).

(** What the code around PyObjectRefs does: constructs and assigns them, calls Py_XINCREF and Py_XDECREF itself,
    lets Python create objects. *)
Inductive rcmd : Type :=
| RDefault                       (* 151 PyObjectRef() *)
| RFrom (p : ptr)                (* 158 PyObjectRef( T * ) *)
| RCopy (w : nat)                (* 167 copy constructor *)
| RMove (w : nat)                (* 175 move constructor *)
| RCopyAssign (v w : nat)
| RMoveAssign (v w : nat)
| RPtrAssign (v : nat) (p : ptr)
| RRelease (v : nat)             (* 252-257 release: the pointer is left to the caller *)
| RDestroy (v : nat)
| RIncref (p : ptr)
| RDecref (p : ptr)
| RCreate (l : list nat).        (* a new object which takes over these references *)
Definition rstep (c : rcmd) (s : pstate) : outcome pstate :=
  match c with
  | RDefault => Ok (push s None)
  | RFrom p => Ok (push s p)
  | RCopy w => copy_assign (push s None) (length (p_vars s)) w
  | RMove w => move_assign (push s None) (length (p_vars s)) w
  | RCopyAssign v w => copy_assign s v w
  | RMoveAssign v w => move_assign s v w
  | RPtrAssign v p => ptr_assign s v p
  | RRelease v => _ <- getv s v ;; Ok (setv s v None)
  | RDestroy v => destroy s v
  | RIncref p => h <- xincref (p_heap s) p ;; Ok (mkP h (p_vars s))
  | RDecref p => h <- xdecref (p_heap s) p ;; Ok (mkP h (p_vars s))
  | RCreate l => Ok (mkP (fst (fresh (p_heap s) l)) (p_vars s))
  end.
Fixpoint rrun (prog : list rcmd) (s : pstate) : outcome pstate :=
  match prog with [] => Ok s | c :: prog' => s' <- rstep c s ;; rrun prog' s' end.

(** * Functions *)
(** The destructors of an array or of local variables; in C++ in reverse order. *)
Fixpoint destroy_all (h : heap) (ps : list ptr) : outcome heap :=
  match ps with [] => Ok h | p :: ps' => h' <- destroy_all h ps' ;; xdecref h' p end.
(** The loop of PyFunc.cpp:47-51; release() makes every entry of args null. *)
Fixpoint set_items (h : heap) (t : nat) (args : list nat) : outcome heap :=
  match args with [] => Ok h | a :: args' => h' <- steal h t a ;; set_items h' t args' end.
(** PyFunc.cpp:38-54 callPyFunc. [tupleOk]: PyTuple_New succeeds; [callOk]: the call does not raise. Python code
    may keep the arguments, which is not modelled. Returns the entries of args after the call. *)
Definition callPyFunc (h : heap) (args : list nat) (tupleOk callOk : bool) : outcome (heap * list ptr) :=
  if tupleOk then
    let '(h1, tup) := fresh h [] in
    h2 <- set_items h1 tup args ;;
    h3 <- (if callOk then let '(h3, r) := fresh h2 [] in xdecref h3 (Some r) else Ok h2) ;;
    h4 <- xdecref h3 (Some tup) ;;
    Ok (h4, map (fun _ => None) args)
  else Ok (h, map Some args).
(** The arguments of PyFunc.hpp:80-91: create( arg ) returns a new reference to a new object, or nullptr when
    [ok] says so. *)
Fixpoint make_args (h : heap) (ok : list bool) : heap * list ptr :=
  match ok with
  | [] => (h, [])
  | b :: ok' =>
      let '(h1, p) := if b then let '(h1, o) := fresh h [] in (h1, Some o) else (h, None) in
      let '(h2, ps) := make_args h1 ok' in (h2, p :: ps)
  end.
Fixpoint all_some (ps : list ptr) : option (list nat) :=
  match ps with
  | [] => Some []
  | Some o :: ps' => match all_some ps' with Some l => Some (o :: l) | None => None end
  | None :: _ => None
  end.
(** PyFunc.hpp:80-103 operator(); false: it throws before the call. *)
Definition call_function (h : heap) (ok : list bool) (tupleOk callOk : bool) : outcome (heap * bool) :=
  let '(h1, args) := make_args h ok in
  match all_some args with
  | Some l => '(h2, rest) <- callPyFunc h1 l tupleOk callOk ;; h3 <- destroy_all h2 rest ;; Ok (h3, true)
  | None => h2 <- destroy_all h1 args ;; Ok (h2, false)
  end.

(** pythonHelpers.cpp:61-78 addTypeToModule; [addOk]: PyModule_AddObject succeeds *)
Definition addTypeToModule (h : heap) (module type : nat) (addOk : bool) : outcome heap :=
  h1 <- incref h type ;;
  if addOk then steal h1 module type else decref h1 type.
(** python.cpp:146-155 addPyLvArrayModule: [o] is the module pylvarray, PyImport_ImportModule returns a new
    reference to it. *)
Definition addPyLvArrayModule (h : heap) (module o : nat) (addOk : bool) : outcome heap :=
  h1 <- incref h o ;;
  h2 <- (if addOk then steal h1 module o else Ok h1) ;;
  xdecref h2 (Some o).

(** numpyHelpers.cpp:183-196, the loop of createCupyArrayImpl which fills the two tuples: each PyLong is new,
    each entry is given away and then destroyed at the end of the loop body, dimEntry first. Small numbers, which
    Python keeps alive itself, are not modelled. *)
Fixpoint fill_tuples (h : heap) (ndim stride dim : nat) : outcome heap :=
  match ndim with
  | O => Ok h
  | S n =>
      let '(h1, strideEntry) := fresh h [] in
      let '(h2, dimEntry) := fresh h1 [] in
      h3 <- steal h2 stride strideEntry ;;
      h4 <- steal h3 dim dimEntry ;;
      h5 <- xdecref h4 (Some dimEntry) ;;
      h6 <- xdecref h5 (Some strideEntry) ;;
      fill_tuples h6 n stride dim
  end.
(** numpyHelpers.cpp:155-217, from the two tuples on; the calls after the loop fail or leave the counts as they
    are. The destructors at the end: dimTuple, then strideTuple. *)
Definition createCupyArray (h : heap) (ndim : nat) : outcome heap :=
  let '(h1, stride) := fresh h [] in
  let '(h2, dim) := fresh h1 [] in
  h3 <- fill_tuples h2 ndim stride dim ;;
  h4 <- xdecref h3 (Some dim) ;;
  xdecref h4 (Some stride).

(** PyCRSMatrix.cpp:156-190 toSciPy, for a compressed matrix with rows: three new NumPy arrays; [mod_], [ctor]: the
    module and its attribute, to which the calls return new references; the new matrix owns references to the
    three arrays. *)
Definition toSciPy (h : heap) (mod_ ctor : nat) : outcome (heap * nat) :=
  let '(h1, entries) := fresh h [] in
  let '(h2, columns) := fresh h1 [] in
  let '(h3, offsets) := fresh h2 [] in
  h4 <- incref h3 mod_ ;;
  h5 <- incref h4 ctor ;;
  h6 <- incref h5 entries ;;
  h7 <- incref h6 columns ;;
  h8 <- incref h7 offsets ;;
  let '(h9, matrix) := fresh h8 [entries; columns; offsets] in
  h10 <- xdecref h9 (Some ctor) ;;
  h11 <- xdecref h10 (Some mod_) ;;
  Ok (h11, matrix).

(** PyArray.cpp:284-304, PySortedArray.cpp:239-260, PyArrayOfArrays.cpp:313-332, PyArrayOfSets.cpp:327-346,
    PyCRSMatrix.cpp:435-455 internal::create; [typeOk]: there is a NumPy type for the values; its type object
    [dtype] is owned by the new object. *)
Definition create_wrapper (h : heap) (dtype : nat) (typeOk : bool) : outcome (heap * ptr) :=
  let '(h1, ret) := fresh h [] in
  if typeOk then h2 <- incref h1 dtype ;; h3 <- steal h2 ret dtype ;; Ok (h3, Some ret)
  else Ok (h1, None).
