(** Copy assignment of ArrayOfArrays, ArrayOfSets, SparsityPattern and CRSMatrix: ArrayOfArraysView.hpp setEqualTo. *)
From Coq Require Import List Arith ZArith Bool.
From Verif Require Import Base Mem BufferManip AoA AoS Sparsity CRS Values CopyMove.
Import ListNotations.
Set Implicit Arguments.

Section AoACopy.
Variable V W : Type.
Variable chk tv tw dual : bool.
Notation kind := BMalloc.
Notation aoa := (aoa V W).

(** arrayManipulation.hpp:176-188 uninitializedCopy( &srcBuffer[ o ], &srcBuffer[ o ] + n, &dstBuffer[ o ] ) *)
Definition copy_row {A} (t : bool) (srcb : buf A) (o n : nat) (b : buf A) : outcome (buf A) :=
  for_up n (fun j b => v <- rd srcb (o + j) ;; construct t b (o + j) v) 0 b.
(** The same when source and destination are the same buffer. *)
Definition copy_row_self {A} (t : bool) (o n : nat) (b : buf A) : outcome (buf A) :=
  for_up n (fun j b => v <- rd b (o + j) ;; construct t b (o + j) v) 0 b.

(** ArrayOfArraysView.hpp:850-864 the loop over the arrays for one pair of buffers, [cp] being the copy of one array *)
Definition copy_rows {A} (a : aoa) (cp : nat -> nat -> buf A -> outcome (buf A)) (b : buf A) : outcome (buf A) :=
  for_up (numArrays a) (fun i b => o <- offset a i ;; s <- sizeOfArray chk a i ;; cp o s b) 0 b.

(** ArrayOfArraysView.hpp:829-865 setEqualTo( src.m_numArrays, src.m_offsets[ src.m_numArrays ], ... ) as called by
    ArrayOfArrays.hpp:169-177, ArrayOfSets.hpp:99-107, SparsityPattern.hpp:96-105 and CRSMatrix.hpp:101-111 *)
Definition setEqualTo (a src : aoa) : outcome aoa :=
  srcMaxOffset <- offset src (numArrays src) ;;
  a1 <- destroyValues chk tv tw dual a 0 (numArrays a) ;;
  let offsetsSize := if numArrays a =? 0 then 0 else numArrays a + 1 in
  o <- copyInto chk true kind (offs a1) offsetsSize (offs src) (numArrays src + 1) 0 ;;
  s <- copyInto chk true kind (szs a1) (numArrays a) (szs src) (numArrays src) 0 ;;
  let a2 := set_szs s (set_offs o a1) in
  maxOffset <- offset a2 (numArrays a) ;;
  a3 <- each tv tw dual (fun A t b => BufferManip.reserve chk t kind b maxOffset srcMaxOffset) a2 ;;
  let a4 := set_num (numArrays src) a3 in
  v <- copy_rows a4 (copy_row tv (vals src)) (vals a4) ;;
  e <- (if dual then copy_rows a4 (copy_row tw (ents src)) (ents a4) else Ok (ents a4)) ;;
  Ok (mkAoA (numArrays a4) (offs a4) (szs a4) v e).

(** a = a. LVARRAY_RESTRICT is ignored. *)
Definition setEqualToSelf (a : aoa) : outcome aoa :=
  srcMaxOffset <- offset a (numArrays a) ;;
  a1 <- destroyValues chk tv tw dual a 0 (numArrays a) ;;
  let offsetsSize := if numArrays a =? 0 then 0 else numArrays a + 1 in
  _ <- check chk (offs a1) offsetsSize ;;
  _ <- check chk (offs a1) (numArrays a + 1) ;;
  o1 <- resize chk true kind (offs a1) offsetsSize (numArrays a + 1) 0 ;;
  o <- for_up (numArrays a + 1) (fun i b => v <- rd b i ;; assign true b i v) 0 o1 ;;
  s <- copyIntoSelf chk true 0 (szs a1) (numArrays a) ;;
  let a2 := set_szs s (set_offs o a1) in
  maxOffset <- offset a2 (numArrays a) ;;
  a3 <- each tv tw dual (fun A t b => BufferManip.reserve chk t kind b maxOffset srcMaxOffset) a2 ;;
  v <- copy_rows a3 (copy_row_self tv) (vals a3) ;;
  e <- (if dual then copy_rows a3 (copy_row_self tw) (ents a3) else Ok (ents a3)) ;;
  Ok (mkAoA (numArrays a3) (offs a3) (szs a3) v e).

(** Storage: all four buffers. Null pointers and capacity 0 are identified; the object's blocks are one handle (Values.v).
    Members: m_numArrays and [E], which is m_numCols for SparsityPattern and CRSMatrix and nothing for the others. *)
Notation bufs := (buf nat * buf nat * buf V * buf W)%type.
Definition abufs (a : aoa) : bufs := (offs a, szs a, vals a, ents a).
Definition anull (s : bufs) : bool := match s with ([], [], [], []) => true | _ => false end.
Variable E : Type.
Definition apack (v : nat * E * bufs) : aoa * E := let '(n, x, (o, s, b, e)) := v in (mkAoA n o s b e, x).
Definition aunpack (v : aoa * E) : nat * E * bufs := (numArrays (fst v), snd v, abufs (fst v)).
(** ArrayOfArrays.hpp:55-60 the default constructor resizes to no arrays; 67 copy constructor; ArrayOfArraysView.hpp:216-221
    and 254-262, SparsityPatternView.hpp:102-105 and 136-142, CRSMatrixView.hpp:115 and 149: a moved object has null
    pointers, no arrays and no columns. ArrayOfArrays.hpp:185-190, ArrayOfSets.hpp:115-120, SparsityPattern.hpp:113-118 and
    CRSMatrix.hpp:119-124: move assignment calls free first, which sets m_numArrays to 0. [e0] is 0 columns. *)
Definition aoa_class {F} (e0 : E) (step : F -> aoa * E -> outcome (aoa * E)) : class (nat * E) bufs F :=
  mkClass (St := bufs) ([], [], [], []) anull (0, e0)
    (match new_aoa V W chk tv tw dual kind 0 0 with Ok a => abufs a | _ => ([], [], [], []) end)
    (fun f v => a <- step f (apack v) ;; Ok (aunpack a))
    (fun v w => a <- setEqualTo (fst (apack v)) (fst (apack w)) ;; Ok (aunpack (a, snd (apack w))))
    (fun v => a <- setEqualToSelf (fst (apack v)) ;; Ok (aunpack (a, snd (apack v))))
    (fun _ => (0, e0)) true (fun m => (0, snd m))
    (fun v => aoa_dtor chk tv tw dual kind (fst (apack v))).
End AoACopy.

(** The calls of the four classes, on the rows and the further member. *)
Section Steps.
Variable chk : bool.
Definition arrays_step {V} (tv : bool) (dflt : V) (c : acall V) (v : aoa V unit * unit) : outcome (aoa V unit * unit) :=
  a <- astep chk tv true false BMalloc dflt c (fst v) ;; Ok (a, snd v).
Definition sets_step {V} (lt eqb : V -> V -> bool) (dflt : V) (c : tcall V) (v : aoa V unit * unit) : outcome (aoa V unit * unit) :=
  '(a, _) <- tstep chk true true false BMalloc lt eqb dflt c (fst v) ;; Ok (a, snd v).
Definition pattern_step (cmax : Z) (c : pcall) (v : aoa Z unit * nat) : outcome (aoa Z unit * nat) :=
  '(p, _) <- pstep chk true false BMalloc cmax c (mkSP (fst v) (snd v)) ;; Ok (rows p, ncols p).
Definition matrix_step {W} (cmax : Z) (add : W -> W -> W) (zero : W) (c : ccall W) (v : aoa Z W * nat) : outcome (aoa Z W * nat) :=
  '(p, _) <- cstep chk true BMalloc cmax add zero c (mkSP (fst v) (snd v)) ;; Ok (rows p, ncols p).
End Steps.
