(** Model of the eigenvalues and eigenvectors of symmetric 2x2 and 3x3 matrices (src/fixedSizeSquareMatrixOpsImpl.hpp). Memory and
    operands as in Tensor.v; the C arrays fpCopy, tmp and nullVectorCandidate are local blocks of slots. The element type of the matrix is
    that of the results (the code also takes a matrix of integers and converts it in [copy]). *)
From Coq Require Import List Arith Bool.
From Verif Require Import Base Tensor TensorFixed.
Import ListNotations.
Set Implicit Arguments.

(** What the code takes from the floating point type and from src/math.hpp: math::abs, max, sqrt, invSqrt, acos, the two results of
    math::sincos, the comparisons, NumericLimits< FloatingPoint >::epsilon and the literal squareRootThree. *)
Record floating (T : Type) := Floating {
  fabs : T -> T;
  fmax : T -> T -> T;
  fsqrt : T -> T;
  finvSqrt : T -> T;
  facos : T -> T;
  fsin : T -> T;
  fcos : T -> T;
  fgt : T -> T -> bool;
  fle : T -> T -> bool;
  epsilon : T;
  squareRootThree : T }.

Section Eigen.
Variable T : Type.
Variable ar : arith T.
Variable fl : floating T.
Variable chk : bool.
Notation memory := (list (option T)).
Notation "x [+] y" := (bin (add ar) x y) (at level 50, left associativity).
Notation "x [-] y" := (bin (sub ar) x y) (at level 50, left associativity).
Notation "x [*] y" := (bin (mul ar) x y) (at level 40, left associativity).
Notation "x [/] y" := (bin (div ar) x y) (at level 40, left associativity).
Notation "a <~ e" := (assign_at a e) (at level 60).
Notation "c ;> d" := (andthen c d) (at level 61, right associativity).
Notation check1 := (check1 chk).
Notation check2 := (check2 chk).
Notation neg x := (opp ar x).
Notation two := (two ar).

(** A positive integer converted to the element type. *)
Fixpoint number (n : nat) : T :=
  match n with 0 => zero ar | 1 => one ar | S n => add ar (number n) (one ar) end.

(** fixedSizeSquareMatrixOpsImpl.hpp:36-61; returns shift and maxEntryAfterShift. *)
Definition shiftAndScale (M : nat) (matrix : vref) (h : memory) : outcome (memory * (T * T)) :=
  t <- symTrace ar chk M matrix h ;;
  let shift := div ar t (number M) in
  h <- symAddIdentity ar chk M matrix (neg shift) h ;;
  maxEntryAfterShift <- maxAbsoluteEntry chk (fabs fl) (fmax fl) (SYM_SIZE M) matrix h ;;
  h <- (if fgt fl maxEntryAfterShift (zero ar)
        then scale ar chk (SYM_SIZE M) matrix (div ar (one ar) maxEntryAfterShift) h
        else Ok h) ;;
  t <- symTrace ar chk M matrix h ;;
  let secondShift := div ar t (number M) in
  h <- symAddIdentity ar chk M matrix (neg secondShift) h ;;
  Ok (h, (shift, maxEntryAfterShift)).

(** * 2x2 *)

(** fixedSizeSquareMatrixOpsImpl.hpp:541-556 *)
Definition eigenvaluesOfShiftedMatrix2 (eigenvalues matrix : vref) : command T :=
  vat eigenvalues 1 <~ un (fsqrt fl) (vx matrix 2 [*] vx matrix 2 [-] vx matrix 0 [*] vx matrix 1) ;>
  vat eigenvalues 0 <~ un (opp ar) (vx eigenvalues 1).

(** fixedSizeSquareMatrixOpsImpl.hpp:410-413 and 486-489: the eigenvalues of the matrix from those of the shifted and scaled one. *)
Definition rescale2 (eigenvalues : vref) (shift maxEntryAfterShift : T) : command T :=
  vat eigenvalues 0 <~ vx eigenvalues 0 [*] lit maxEntryAfterShift [+] lit shift ;>
  vat eigenvalues 1 <~ vx eigenvalues 1 [*] lit maxEntryAfterShift [+] lit shift.

(** fixedSizeSquareMatrixOpsImpl.hpp:392-414 *)
Definition symEigenvalues2 (eigenvalues symMatrix : vref) (h : memory) : outcome (memory * unit) :=
  _ <- check1 2 eigenvalues ;; _ <- check1 3 symMatrix ;;
  with_local 3 (fun base h =>
    let fpCopy := carray base 3 in
    h <- copy chk 3 fpCopy symMatrix h ;;
    '(h, (shift, maxEntryAfterShift)) <- shiftAndScale 2 fpCopy h ;;
    h <- eigenvaluesOfShiftedMatrix2 eigenvalues fpCopy h ;;
    h <- rescale2 eigenvalues shift maxEntryAfterShift h ;;
    Ok (h, tt)) h.

(** fixedSizeSquareMatrixOpsImpl.hpp:459-483, the branch for different eigenvalues. *)
Definition eigenvectors2 (eigenvalues : vref) (eigenvectors : mref) (fpCopy : vref) : command T := fun h =>
  e1 <- vx eigenvalues 1 h ;;
  h <- symAddIdentity ar chk 2 fpCopy (neg e1) h ;;
  a2 <- (vx fpCopy 0 [*] vx fpCopy 0) h ;;
  c2 <- (vx fpCopy 1 [*] vx fpCopy 1) h ;;
  b2 <- (vx fpCopy 2 [*] vx fpCopy 2) h ;;
  h <- (if fgt fl a2 c2
        then let inv := lit (finvSqrt fl (add ar a2 b2)) in
             (mat eigenvectors 0 1 <~ un (opp ar) (vx fpCopy 2) [*] inv ;>
              mat eigenvectors 1 1 <~ vx fpCopy 0 [*] inv) h
        else let inv := lit (finvSqrt fl (add ar c2 b2)) in
             (mat eigenvectors 0 1 <~ un (opp ar) (vx fpCopy 1) [*] inv ;>
              mat eigenvectors 1 1 <~ vx fpCopy 2 [*] inv) h) ;;
  (mat eigenvectors 0 0 <~ un (opp ar) (mx eigenvectors 1 1) ;>
   mat eigenvectors 1 0 <~ mx eigenvectors 0 1) h.

(** fixedSizeSquareMatrixOpsImpl.hpp:430-490 *)
Definition symEigenvectors2 (eigenvalues : vref) (eigenvectors : mref) (symMatrix : vref) (h : memory) : outcome (memory * unit) :=
  _ <- check1 2 eigenvalues ;; _ <- check2 2 2 eigenvectors ;; _ <- check1 3 symMatrix ;;
  with_local 3 (fun base h =>
    let fpCopy := carray base 3 in
    h <- copy chk 3 fpCopy symMatrix h ;;
    '(h, (shift, maxEntryAfterShift)) <- shiftAndScale 2 fpCopy h ;;
    h <- eigenvaluesOfShiftedMatrix2 eigenvalues fpCopy h ;;
    difference <- (vx eigenvalues 1 [-] vx eigenvalues 0) h ;;
    h <- (if fle fl difference (epsilon fl)
          then (mat eigenvectors 0 0 <~ lit (one ar) ;> mat eigenvectors 0 1 <~ lit (zero ar) ;>
                mat eigenvectors 1 0 <~ lit (zero ar) ;> mat eigenvectors 1 1 <~ lit (one ar)) h
          else eigenvectors2 eigenvalues eigenvectors fpCopy h) ;;
    h <- rescale2 eigenvalues shift maxEntryAfterShift h ;;
    Ok (h, tt)) h.

(** * 3x3 *)

(** fixedSizeSquareMatrixOpsImpl.hpp:1174-1217 *)
Definition eigenvaluesOfShiftedMatrix3 (eigenvalues matrix : vref) : command T := fun h =>
  oneSixthTraceASquared <-
    ((vx matrix 2 [*] vx matrix 2 [-] vx matrix 0 [*] vx matrix 1 [+] vx matrix 3 [*] vx matrix 3 [+]
      vx matrix 4 [*] vx matrix 4 [+] vx matrix 5 [*] vx matrix 5) [/] lit (number 3)) h ;;
  let p := fsqrt fl oneSixthTraceASquared in
  det <- (if fgt fl p (zero ar)
          then d <- symDeterminant3 ar chk matrix h ;; Ok (div ar d (mul ar (mul ar p p) p))
          else Ok (zero ar)) ;;
  let halfDetB := if fgt fl det two then one ar else if fgt fl (neg two) det then neg (one ar) else div ar det two in
  let theta := div ar (facos fl halfDetB) (number 3) in
  let sinTheta := fsin fl theta in
  let cosTheta := fcos fl theta in
  (vat eigenvalues 0 <~ lit (neg p) [*] (lit cosTheta [+] lit (squareRootThree fl) [*] lit sinTheta) ;>
   vat eigenvalues 1 <~ lit (neg p) [*] (lit cosTheta [-] lit (squareRootThree fl) [*] lit sinTheta) ;>
   vat eigenvalues 2 <~ lit two [*] lit p [*] lit cosTheta) h.

(** fixedSizeSquareMatrixOpsImpl.hpp:1022-1025 and 1110-1113 *)
Definition rescale3 (eigenvalues : vref) (shift maxEntryAfterShift : T) : command T :=
  vat eigenvalues 0 <~ lit maxEntryAfterShift [*] vx eigenvalues 0 [+] lit shift ;>
  vat eigenvalues 1 <~ lit maxEntryAfterShift [*] vx eigenvalues 1 [+] lit shift ;>
  vat eigenvalues 2 <~ lit maxEntryAfterShift [*] vx eigenvalues 2 [+] lit shift.

(** fixedSizeSquareMatrixOpsImpl.hpp:1005-1026 *)
Definition symEigenvalues3 (eigenvalues symMatrix : vref) (h : memory) : outcome (memory * unit) :=
  _ <- check1 3 eigenvalues ;; _ <- check1 6 symMatrix ;;
  with_local 6 (fun base h =>
    let fpCopy := carray base 6 in
    h <- copy chk 6 fpCopy symMatrix h ;;
    '(h, (shift, maxEntryAfterShift)) <- shiftAndScale 3 fpCopy h ;;
    h <- eigenvaluesOfShiftedMatrix3 eigenvalues fpCopy h ;;
    h <- rescale3 eigenvalues shift maxEntryAfterShift h ;;
    Ok (h, tt)) h.

(** fixedSizeSquareMatrixOpsImpl.hpp:1228-1255 *)
Definition getNullVector (nullVector : vref) (m : mref) (h : memory) : outcome (memory * nat) :=
  x00 <- mx m 0 0 h ;; x11 <- mx m 1 1 h ;; x22 <- mx m 2 2 h ;;
  let abs00 := fabs fl x00 in
  let abs11 := fabs fl x11 in
  let abs22 := fabs fl x22 in
  let r := if fgt fl abs00 abs11 then (if fgt fl abs00 abs22 then 0 else 2)
           else (if fgt fl abs11 abs22 then 1 else 2) in
  h <- crossProduct ar chk nullVector (row m r) (row m ((r + 1) mod 3)) h ;;
  n0 <- l2NormSquared ar chk 3 nullVector h ;;
  with_local 3 (fun base h =>
    let nullVectorCandidate := carray base 3 in
    h <- crossProduct ar chk nullVectorCandidate (row m r) (row m ((r + 2) mod 3)) h ;;
    n1 <- l2NormSquared ar chk 3 nullVectorCandidate h ;;
    h <- (if fgt fl n0 n1
          then scale ar chk 3 nullVector (finvSqrt fl n0) h
          else scaledCopy ar chk 3 nullVector nullVectorCandidate (finvSqrt fl n1) h) ;;
    Ok (h, r)) h.

(** fixedSizeSquareMatrixOpsImpl.hpp:1063-1107, the branch for eigenvalues that are not all the same. *)
Definition eigenvectors3 (eigenvalues : vref) (eigenvectors : mref) (fpCopy : vref) (eigenvalueDifference : T) (h : memory)
    : outcome (memory * T) :=
  gap21 <- (vx eigenvalues 2 [-] vx eigenvalues 1) h ;;
  gap10 <- (vx eigenvalues 1 [-] vx eigenvalues 0) h ;;
  let mostDistinct := if fgt fl gap21 gap10 then 2 else 0 in
  let secondMostDistinct := 2 - mostDistinct in
  with_local 9 (fun base h =>
    let tmp := cmatrix base 3 3 in
    h <- (mat tmp 0 0 <~ vx fpCopy 0 [-] vx eigenvalues mostDistinct ;> mat tmp 0 1 <~ vx fpCopy 5 ;> mat tmp 0 2 <~ vx fpCopy 4 ;>
          mat tmp 1 0 <~ vx fpCopy 5 ;> mat tmp 1 1 <~ vx fpCopy 1 [-] vx eigenvalues mostDistinct ;> mat tmp 1 2 <~ vx fpCopy 3 ;>
          mat tmp 2 0 <~ vx fpCopy 4 ;> mat tmp 2 1 <~ vx fpCopy 3 ;> mat tmp 2 2 <~ vx fpCopy 2 [-] vx eigenvalues mostDistinct) h ;;
    '(h, r) <- getNullVector (row eigenvectors mostDistinct) tmp h ;;
    minEigenvalueSpacing <- un (fabs fl) (vx eigenvalues secondMostDistinct [-] vx eigenvalues 1) h ;;
    h <- (if fle fl minEigenvalueSpacing (mul ar (mul ar two (epsilon fl)) eigenvalueDifference)
          then norm2 <- l2NormSquared ar chk 3 (row tmp r) h ;;
               scaledCopy ar chk 3 (row eigenvectors secondMostDistinct) (row tmp r) (finvSqrt fl norm2) h
          else h <- (mat tmp 0 0 <~ vx fpCopy 0 [-] vx eigenvalues secondMostDistinct ;>
                     mat tmp 1 1 <~ vx fpCopy 1 [-] vx eigenvalues secondMostDistinct ;>
                     mat tmp 2 2 <~ vx fpCopy 2 [-] vx eigenvalues secondMostDistinct) h ;;
               '(h, _) <- getNullVector (row eigenvectors secondMostDistinct) tmp h ;; Ok h) ;;
    h <- crossProduct ar chk (row eigenvectors 1) (row eigenvectors 2) (row eigenvectors 0) h ;;
    normalize ar chk (finvSqrt fl) 3 (row eigenvectors 1) h) h.

(** fixedSizeSquareMatrixOpsImpl.hpp:1042-1114 *)
Definition symEigenvectors3 (eigenvalues : vref) (eigenvectors : mref) (symMatrix : vref) (h : memory) : outcome (memory * unit) :=
  _ <- check1 3 eigenvalues ;; _ <- check2 3 3 eigenvectors ;; _ <- check1 6 symMatrix ;;
  with_local 6 (fun base h =>
    let fpCopy := carray base 6 in
    h <- copy chk 6 fpCopy symMatrix h ;;
    '(h, (shift, maxEntryAfterShift)) <- shiftAndScale 3 fpCopy h ;;
    h <- eigenvaluesOfShiftedMatrix3 eigenvalues fpCopy h ;;
    eigenvalueDifference <- (vx eigenvalues 2 [-] vx eigenvalues 0) h ;;
    h <- (if fle fl eigenvalueDifference (epsilon fl)
          then (mat eigenvectors 0 0 <~ lit (one ar) ;> mat eigenvectors 0 1 <~ lit (zero ar) ;> mat eigenvectors 0 2 <~ lit (zero ar) ;>
                mat eigenvectors 1 0 <~ lit (zero ar) ;> mat eigenvectors 1 1 <~ lit (one ar) ;> mat eigenvectors 1 2 <~ lit (zero ar) ;>
                mat eigenvectors 2 0 <~ lit (zero ar) ;> mat eigenvectors 2 1 <~ lit (zero ar) ;> mat eigenvectors 2 2 <~ lit (one ar)) h
          else '(h, _) <- eigenvectors3 eigenvalues eigenvectors fpCopy eigenvalueDifference h ;; Ok h) ;;
    h <- rescale3 eigenvalues shift maxEntryAfterShift h ;;
    Ok (h, tt)) h.
End Eigen.
