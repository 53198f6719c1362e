(** Model of src/fixedSizeSquareMatrixOpsImpl.hpp (and of the forwarding functions of src/fixedSizeSquareMatrixOps.hpp): operations
    on 2x2 and 3x3 matrices and on symmetric ones in Voigt notation. Memory and operands as in Tensor.v. *)
From Coq Require Import List Arith Bool.
From Verif Require Import Base Tensor.
Import ListNotations.
Set Implicit Arguments.

Section Fixed.
Variable T : Type.
Variable ar : arith T.
Variable chk : bool.
Notation memory := (list (option T)).
Notation "x [+] y" := (bin (add ar) x y) (at level 50, left associativity).
Notation "x [-] y" := (bin (sub ar) x y) (at level 50, left associativity).
Notation "x [*] y" := (bin (mul ar) x y) (at level 40, left associativity).
Notation "x [/] y" := (bin (div ar) x y) (at level 40, left associativity).
Notation "a <~ e" := (assign_at a e) (at level 60).
Notation "c ;> d" := (andthen c d) (at level 61, right associativity).
Notation check1 := (check1 chk).
Notation check2 := (check2 chk).
Notation neg x := (opp ar x).

(** The literal 2 converted to the element type. *)
Definition two : T := add ar (one ar) (one ar).

(** * 2x2 *)

(** fixedSizeSquareMatrixOpsImpl.hpp:81-92 *)
Definition determinant2 (a : mref) (h : memory) : outcome T :=
  _ <- check2 2 2 a ;;
  (mx a 0 0 [*] mx a 1 1 [-] mx a 0 1 [*] mx a 1 0) h.

(** fixedSizeSquareMatrixOpsImpl.hpp:94-122 *)
Definition invert2 (dst src : mref) (h : memory) : outcome (memory * T) :=
  _ <- check2 2 2 dst ;; _ <- check2 2 2 src ;;
  det <- determinant2 src h ;;
  let invDet := div ar (one ar) det in
  h <- (mat dst 0 0 <~ mx src 1 1 [*] lit invDet ;>
        mat dst 1 1 <~ mx src 0 0 [*] lit invDet ;>
        mat dst 0 1 <~ mx src 0 1 [*] lit (neg invDet) ;>
        mat dst 1 0 <~ mx src 1 0 [*] lit (neg invDet)) h ;;
  Ok (h, det).

(** fixedSizeSquareMatrixOpsImpl.hpp:124-147 *)
Definition invert2_in_place (a : mref) (h : memory) : outcome (memory * T) :=
  _ <- check2 2 2 a ;;
  det <- determinant2 a h ;;
  let invDet := div ar (one ar) det in
  temp <- mx a 0 0 h ;;
  h <- (mat a 0 0 <~ mx a 1 1 [*] lit invDet ;>
        mat a 1 1 <~ lit temp [*] lit invDet ;>
        mat a 0 1 <~ mx a 0 1 [*] lit (neg invDet) ;>
        mat a 1 0 <~ mx a 1 0 [*] lit (neg invDet)) h ;;
  Ok (h, det).

(** fixedSizeSquareMatrixOpsImpl.hpp:149-160 *)
Definition symDeterminant2 (s : vref) (h : memory) : outcome T :=
  _ <- check1 3 s ;;
  (vx s 0 [*] vx s 1 [-] vx s 2 [*] vx s 2) h.

(** fixedSizeSquareMatrixOpsImpl.hpp:162-189 *)
Definition symInvert2 (dst src : vref) (h : memory) : outcome (memory * T) :=
  _ <- check1 3 dst ;; _ <- check1 3 src ;;
  det <- symDeterminant2 src h ;;
  let invDet := div ar (one ar) det in
  h <- (vat dst 0 <~ vx src 1 [*] lit invDet ;>
        vat dst 1 <~ vx src 0 [*] lit invDet ;>
        vat dst 2 <~ vx src 2 [*] lit (neg invDet)) h ;;
  Ok (h, det).

(** fixedSizeSquareMatrixOpsImpl.hpp:191-213 *)
Definition symInvert2_in_place (s : vref) (h : memory) : outcome (memory * T) :=
  _ <- check1 3 s ;;
  det <- symDeterminant2 s h ;;
  let invDet := div ar (one ar) det in
  temp <- vx s 0 h ;;
  h <- (vat s 0 <~ vx s 1 [*] lit invDet ;>
        vat s 1 <~ lit temp [*] lit invDet ;>
        vat s 2 <~ vx s 2 [*] lit (neg invDet)) h ;;
  Ok (h, det).

(** fixedSizeSquareMatrixOpsImpl.hpp:215-238 *)
Definition Ri_eq_symAijBj2 (dst a b : vref) : command T := fun h =>
  _ <- check1 2 dst ;; _ <- check1 3 a ;; _ <- check1 2 b ;;
  (vat dst 0 <~ vx a 0 [*] vx b 0 [+] vx a 2 [*] vx b 1 ;>
   vat dst 1 <~ vx a 2 [*] vx b 0 [+] vx a 1 [*] vx b 1) h.

(** fixedSizeSquareMatrixOpsImpl.hpp:240-262 *)
Definition Ri_add_symAijBj2 (dst a b : vref) : command T := fun h =>
  _ <- check1 2 dst ;; _ <- check1 3 a ;; _ <- check1 2 b ;;
  (vat dst 0 <~ vx dst 0 [+] vx a 0 [*] vx b 0 [+] vx a 2 [*] vx b 1 ;>
   vat dst 1 <~ vx dst 1 [+] vx a 2 [*] vx b 0 [+] vx a 1 [*] vx b 1) h.

(** fixedSizeSquareMatrixOpsImpl.hpp:264-290 *)
Definition Rij_eq_symAikBjk2 (dst : mref) (a : vref) (b : mref) : command T := fun h =>
  _ <- check2 2 2 dst ;; _ <- check1 3 a ;; _ <- check2 2 2 b ;;
  (mat dst 0 0 <~ vx a 0 [*] mx b 0 0 [+] vx a 2 [*] mx b 0 1 ;>
   mat dst 0 1 <~ vx a 0 [*] mx b 1 0 [+] vx a 2 [*] mx b 1 1 ;>
   mat dst 1 0 <~ vx a 2 [*] mx b 0 0 [+] vx a 1 [*] mx b 0 1 ;>
   mat dst 1 1 <~ vx a 2 [*] mx b 1 0 [+] vx a 1 [*] mx b 1 1) h.

(** fixedSizeSquareMatrixOpsImpl.hpp:292-332 *)
Definition Rij_eq_AikSymBklAjl2 (dst : vref) (a : mref) (b : vref) : command T := fun h =>
  _ <- check1 3 dst ;; _ <- check2 2 2 a ;; _ <- check1 3 b ;;
  (vat dst 0 <~ mx a 0 0 [*] vx b 0 [*] mx a 0 0 [+]
                mx a 0 0 [*] vx b 2 [*] mx a 0 1 [+]
                mx a 0 1 [*] vx b 2 [*] mx a 0 0 [+]
                mx a 0 1 [*] vx b 1 [*] mx a 0 1 ;>
   vat dst 1 <~ mx a 1 0 [*] vx b 0 [*] mx a 1 0 [+]
                mx a 1 0 [*] vx b 2 [*] mx a 1 1 [+]
                mx a 1 1 [*] vx b 2 [*] mx a 1 0 [+]
                mx a 1 1 [*] vx b 1 [*] mx a 1 1 ;>
   vat dst 2 <~ mx a 1 0 [*] vx b 0 [*] mx a 0 0 [+]
                mx a 1 0 [*] vx b 2 [*] mx a 0 1 [+]
                mx a 1 1 [*] vx b 2 [*] mx a 0 0 [+]
                mx a 1 1 [*] vx b 1 [*] mx a 0 1) h.

(** fixedSizeSquareMatrixOpsImpl.hpp:334-355 *)
Definition symRij_eq_AiAj2 (dst a : vref) : command T := fun h =>
  _ <- check1 3 dst ;; _ <- check1 2 a ;;
  (vat dst 0 <~ vx a 0 [*] vx a 0 ;>
   vat dst 1 <~ vx a 1 [*] vx a 1 ;>
   vat dst 2 <~ vx a 0 [*] vx a 1) h.

(** fixedSizeSquareMatrixOpsImpl.hpp:357-381 *)
Definition symRij_eq_AiBj_plus_AjBi2 (dst a b : vref) : command T := fun h =>
  _ <- check1 3 dst ;; _ <- check1 2 a ;; _ <- check1 2 b ;;
  (vat dst 0 <~ lit two [*] vx a 0 [*] vx b 0 ;>
   vat dst 1 <~ lit two [*] vx a 1 [*] vx b 1 ;>
   vat dst 2 <~ vx a 0 [*] vx b 1 [+] vx a 1 [*] vx b 0) h.

(** fixedSizeSquareMatrixOpsImpl.hpp:492-509 *)
Definition denseToSymmetric2 (dst : vref) (src : mref) : command T := fun h =>
  _ <- check1 3 dst ;; _ <- check2 2 2 src ;;
  (vat dst 0 <~ mx src 0 0 ;>
   vat dst 1 <~ mx src 1 1 ;>
   vat dst 2 <~ mx src 0 1) h.

(** fixedSizeSquareMatrixOpsImpl.hpp:511-530 *)
Definition symmetricToDense2 (dst : mref) (src : vref) : command T := fun h =>
  _ <- check2 2 2 dst ;; _ <- check1 3 src ;;
  (mat dst 0 0 <~ vx src 0 ;>
   mat dst 1 1 <~ vx src 1 ;>
   mat dst 0 1 <~ vx src 2 ;>
   mat dst 1 0 <~ vx src 2) h.

(** * 3x3 *)

(** fixedSizeSquareMatrixOpsImpl.hpp:566-580 *)
Definition determinant3 (a : mref) (h : memory) : outcome T :=
  _ <- check2 3 3 a ;;
  (mx a 0 0 [*] (mx a 1 1 [*] mx a 2 2 [-] mx a 1 2 [*] mx a 2 1) [+]
   mx a 1 0 [*] (mx a 0 2 [*] mx a 2 1 [-] mx a 0 1 [*] mx a 2 2) [+]
   mx a 2 0 [*] (mx a 0 1 [*] mx a 1 2 [-] mx a 0 2 [*] mx a 1 1)) h.

(** fixedSizeSquareMatrixOpsImpl.hpp:582-621 *)
Definition invert3 (dst src : mref) (h : memory) : outcome (memory * T) :=
  _ <- check2 3 3 dst ;; _ <- check2 3 3 src ;;
  h <- (mat dst 0 0 <~ mx src 1 1 [*] mx src 2 2 [-] mx src 1 2 [*] mx src 2 1 ;>
        mat dst 0 1 <~ mx src 0 2 [*] mx src 2 1 [-] mx src 0 1 [*] mx src 2 2 ;>
        mat dst 0 2 <~ mx src 0 1 [*] mx src 1 2 [-] mx src 0 2 [*] mx src 1 1) h ;;
  det <- (mx src 0 0 [*] mx dst 0 0 [+] mx src 1 0 [*] mx dst 0 1 [+] mx src 2 0 [*] mx dst 0 2) h ;;
  let invDet := lit (div ar (one ar) det) in
  h <- (mat dst 0 0 <~ mx dst 0 0 [*] invDet ;>
        mat dst 0 1 <~ mx dst 0 1 [*] invDet ;>
        mat dst 0 2 <~ mx dst 0 2 [*] invDet ;>
        mat dst 1 0 <~ (mx src 1 2 [*] mx src 2 0 [-] mx src 1 0 [*] mx src 2 2) [*] invDet ;>
        mat dst 1 1 <~ (mx src 0 0 [*] mx src 2 2 [-] mx src 0 2 [*] mx src 2 0) [*] invDet ;>
        mat dst 1 2 <~ (mx src 0 2 [*] mx src 1 0 [-] mx src 0 0 [*] mx src 1 2) [*] invDet ;>
        mat dst 2 0 <~ (mx src 1 0 [*] mx src 2 1 [-] mx src 1 1 [*] mx src 2 0) [*] invDet ;>
        mat dst 2 1 <~ (mx src 0 1 [*] mx src 2 0 [-] mx src 0 0 [*] mx src 2 1) [*] invDet ;>
        mat dst 2 2 <~ (mx src 0 0 [*] mx src 1 1 [-] mx src 0 1 [*] mx src 1 0) [*] invDet) h ;;
  Ok (h, det).

(** fixedSizeSquareMatrixOpsImpl.hpp:623-658 (the #else branch). [temp] is a local 3x3 array. This overload does not check sizes. *)
Definition invert3_in_place (a : mref) : memory -> outcome (memory * T) := with_local 9 (fun base h =>
  let temp := cmatrix base 3 3 in
  h <- (mat temp 0 0 <~ mx a 1 1 [*] mx a 2 2 [-] mx a 1 2 [*] mx a 2 1 ;>
        mat temp 0 1 <~ mx a 0 2 [*] mx a 2 1 [-] mx a 0 1 [*] mx a 2 2 ;>
        mat temp 0 2 <~ mx a 0 1 [*] mx a 1 2 [-] mx a 0 2 [*] mx a 1 1 ;>
        mat temp 1 0 <~ mx a 1 2 [*] mx a 2 0 [-] mx a 1 0 [*] mx a 2 2 ;>
        mat temp 1 1 <~ mx a 0 0 [*] mx a 2 2 [-] mx a 0 2 [*] mx a 2 0 ;>
        mat temp 1 2 <~ mx a 0 2 [*] mx a 1 0 [-] mx a 0 0 [*] mx a 1 2 ;>
        mat temp 2 0 <~ mx a 1 0 [*] mx a 2 1 [-] mx a 1 1 [*] mx a 2 0 ;>
        mat temp 2 1 <~ mx a 0 1 [*] mx a 2 0 [-] mx a 0 0 [*] mx a 2 1 ;>
        mat temp 2 2 <~ mx a 0 0 [*] mx a 1 1 [-] mx a 0 1 [*] mx a 1 0) h ;;
  det <- (mx a 0 0 [*] mx temp 0 0 [+] mx a 1 0 [*] mx temp 0 1 [+] mx a 2 0 [*] mx temp 0 2) h ;;
  let invDet := lit (div ar (one ar) det) in
  h <- loop 0 3 (fun i => loop 0 3 (fun j => mat a i j <~ mx temp i j [*] invDet)) h ;;
  Ok (h, det)).

(** fixedSizeSquareMatrixOpsImpl.hpp:660-676 *)
Definition symDeterminant3 (s : vref) (h : memory) : outcome T :=
  _ <- check1 6 s ;;
  (vx s 0 [*] vx s 1 [*] vx s 2 [+]
   vx s 5 [*] vx s 4 [*] vx s 3 [*] lit two [-]
   vx s 0 [*] vx s 3 [*] vx s 3 [-]
   vx s 1 [*] vx s 4 [*] vx s 4 [-]
   vx s 2 [*] vx s 5 [*] vx s 5) h.

(** fixedSizeSquareMatrixOpsImpl.hpp:678-714 *)
Definition symInvert3 (dst src : vref) (h : memory) : outcome (memory * T) :=
  _ <- check1 6 dst ;; _ <- check1 6 src ;;
  h <- (vat dst 0 <~ vx src 1 [*] vx src 2 [-] vx src 3 [*] vx src 3 ;>
        vat dst 5 <~ vx src 4 [*] vx src 3 [-] vx src 5 [*] vx src 2 ;>
        vat dst 4 <~ vx src 5 [*] vx src 3 [-] vx src 4 [*] vx src 1) h ;;
  det <- (vx src 0 [*] vx dst 0 [+] vx src 5 [*] vx dst 5 [+] vx src 4 [*] vx dst 4) h ;;
  let invDet := lit (div ar (one ar) det) in
  h <- (vat dst 0 <~ vx dst 0 [*] invDet ;>
        vat dst 5 <~ vx dst 5 [*] invDet ;>
        vat dst 4 <~ vx dst 4 [*] invDet ;>
        vat dst 1 <~ (vx src 0 [*] vx src 2 [-] vx src 4 [*] vx src 4) [*] invDet ;>
        vat dst 3 <~ (vx src 5 [*] vx src 4 [-] vx src 0 [*] vx src 3) [*] invDet ;>
        vat dst 2 <~ (vx src 0 [*] vx src 1 [-] vx src 5 [*] vx src 5) [*] invDet) h ;;
  Ok (h, det).

(** fixedSizeSquareMatrixOpsImpl.hpp:716-732 *)
Definition symInvert3_in_place (s : vref) : memory -> outcome (memory * T) := with_local 6 (fun base h =>
  let temp := carray base 6 in
  '(h, det) <- symInvert3 temp s h ;;
  h <- copy chk 6 s temp h ;;
  Ok (h, det)).

(** fixedSizeSquareMatrixOpsImpl.hpp:734-764 *)
Definition Ri_eq_symAijBj3 (dst a b : vref) : command T := fun h =>
  _ <- check1 3 dst ;; _ <- check1 6 a ;; _ <- check1 3 b ;;
  (vat dst 0 <~ vx a 0 [*] vx b 0 [+] vx a 5 [*] vx b 1 [+] vx a 4 [*] vx b 2 ;>
   vat dst 1 <~ vx a 5 [*] vx b 0 [+] vx a 1 [*] vx b 1 [+] vx a 3 [*] vx b 2 ;>
   vat dst 2 <~ vx a 4 [*] vx b 0 [+] vx a 3 [*] vx b 1 [+] vx a 2 [*] vx b 2) h.

(** fixedSizeSquareMatrixOpsImpl.hpp:766-798 *)
Definition Ri_add_symAijBj3 (dst a b : vref) : command T := fun h =>
  _ <- check1 3 dst ;; _ <- check1 6 a ;; _ <- check1 3 b ;;
  (vat dst 0 <~ vx dst 0 [+] vx a 0 [*] vx b 0 [+] vx a 5 [*] vx b 1 [+] vx a 4 [*] vx b 2 ;>
   vat dst 1 <~ vx dst 1 [+] vx a 5 [*] vx b 0 [+] vx a 1 [*] vx b 1 [+] vx a 3 [*] vx b 2 ;>
   vat dst 2 <~ vx dst 2 [+] vx a 4 [*] vx b 0 [+] vx a 3 [*] vx b 1 [+] vx a 2 [*] vx b 2) h.

(** fixedSizeSquareMatrixOpsImpl.hpp:800-850 *)
Definition Rij_eq_symAikBjk3 (dst : mref) (a : vref) (b : mref) : command T := fun h =>
  _ <- check2 3 3 dst ;; _ <- check1 6 a ;; _ <- check2 3 3 b ;;
  (mat dst 0 0 <~ vx a 0 [*] mx b 0 0 [+] vx a 5 [*] mx b 0 1 [+] vx a 4 [*] mx b 0 2 ;>
   mat dst 0 1 <~ vx a 0 [*] mx b 1 0 [+] vx a 5 [*] mx b 1 1 [+] vx a 4 [*] mx b 1 2 ;>
   mat dst 0 2 <~ vx a 0 [*] mx b 2 0 [+] vx a 5 [*] mx b 2 1 [+] vx a 4 [*] mx b 2 2 ;>
   mat dst 1 0 <~ vx a 5 [*] mx b 0 0 [+] vx a 1 [*] mx b 0 1 [+] vx a 3 [*] mx b 0 2 ;>
   mat dst 1 1 <~ vx a 5 [*] mx b 1 0 [+] vx a 1 [*] mx b 1 1 [+] vx a 3 [*] mx b 1 2 ;>
   mat dst 1 2 <~ vx a 5 [*] mx b 2 0 [+] vx a 1 [*] mx b 2 1 [+] vx a 3 [*] mx b 2 2 ;>
   mat dst 2 0 <~ vx a 4 [*] mx b 0 0 [+] vx a 3 [*] mx b 0 1 [+] vx a 2 [*] mx b 0 2 ;>
   mat dst 2 1 <~ vx a 4 [*] mx b 1 0 [+] vx a 3 [*] mx b 1 1 [+] vx a 2 [*] mx b 1 2 ;>
   mat dst 2 2 <~ vx a 4 [*] mx b 2 0 [+] vx a 3 [*] mx b 2 1 [+] vx a 2 [*] mx b 2 2) h.

(** The nine products that fixedSizeSquareMatrixOpsImpl.hpp:875-939 writes out for the entry (i, j). *)
Definition AikSymBklAjl (a : mref) (b : vref) (i j : nat) : expr T :=
  mx a i 0 [*] vx b 0 [*] mx a j 0 [+]
  mx a i 0 [*] vx b 5 [*] mx a j 1 [+]
  mx a i 0 [*] vx b 4 [*] mx a j 2 [+]
  mx a i 1 [*] vx b 5 [*] mx a j 0 [+]
  mx a i 1 [*] vx b 1 [*] mx a j 1 [+]
  mx a i 1 [*] vx b 3 [*] mx a j 2 [+]
  mx a i 2 [*] vx b 4 [*] mx a j 0 [+]
  mx a i 2 [*] vx b 3 [*] mx a j 1 [+]
  mx a i 2 [*] vx b 2 [*] mx a j 2.

(** fixedSizeSquareMatrixOpsImpl.hpp:852-940 *)
Definition Rij_eq_AikSymBklAjl3 (dst : vref) (a : mref) (b : vref) : command T := fun h =>
  _ <- check1 6 dst ;; _ <- check2 3 3 a ;; _ <- check1 6 b ;;
  (vat dst 0 <~ AikSymBklAjl a b 0 0 ;>
   vat dst 1 <~ AikSymBklAjl a b 1 1 ;>
   vat dst 2 <~ AikSymBklAjl a b 2 2 ;>
   vat dst 3 <~ AikSymBklAjl a b 1 2 ;>
   vat dst 4 <~ AikSymBklAjl a b 0 2 ;>
   vat dst 5 <~ AikSymBklAjl a b 0 1) h.

(** fixedSizeSquareMatrixOpsImpl.hpp:942-965 *)
Definition symRij_eq_AiAj3 (dst a : vref) : command T := fun h =>
  _ <- check1 6 dst ;; _ <- check1 3 a ;;
  (vat dst 0 <~ vx a 0 [*] vx a 0 ;>
   vat dst 1 <~ vx a 1 [*] vx a 1 ;>
   vat dst 2 <~ vx a 2 [*] vx a 2 ;>
   vat dst 3 <~ vx a 1 [*] vx a 2 ;>
   vat dst 4 <~ vx a 0 [*] vx a 2 ;>
   vat dst 5 <~ vx a 0 [*] vx a 1) h.

(** fixedSizeSquareMatrixOpsImpl.hpp:967-994 *)
Definition symRij_eq_AiBj_plus_AjBi3 (dst a b : vref) : command T := fun h =>
  _ <- check1 6 dst ;; _ <- check1 3 a ;; _ <- check1 3 b ;;
  (vat dst 0 <~ lit two [*] vx a 0 [*] vx b 0 ;>
   vat dst 1 <~ lit two [*] vx a 1 [*] vx b 1 ;>
   vat dst 2 <~ lit two [*] vx a 2 [*] vx b 2 ;>
   vat dst 3 <~ vx a 1 [*] vx b 2 [+] vx a 2 [*] vx b 1 ;>
   vat dst 4 <~ vx a 0 [*] vx b 2 [+] vx a 2 [*] vx b 0 ;>
   vat dst 5 <~ vx a 0 [*] vx b 1 [+] vx a 1 [*] vx b 0) h.

(** fixedSizeSquareMatrixOpsImpl.hpp:1116-1136 *)
Definition denseToSymmetric3 (dst : vref) (src : mref) : command T := fun h =>
  _ <- check1 6 dst ;; _ <- check2 3 3 src ;;
  (vat dst 0 <~ mx src 0 0 ;>
   vat dst 1 <~ mx src 1 1 ;>
   vat dst 2 <~ mx src 2 2 ;>
   vat dst 3 <~ mx src 1 2 ;>
   vat dst 4 <~ mx src 0 2 ;>
   vat dst 5 <~ mx src 0 1) h.

(** fixedSizeSquareMatrixOpsImpl.hpp:1138-1163 *)
Definition symmetricToDense3 (dst : mref) (src : vref) : command T := fun h =>
  _ <- check2 3 3 dst ;; _ <- check1 6 src ;;
  (mat dst 0 0 <~ vx src 0 ;>
   mat dst 1 1 <~ vx src 1 ;>
   mat dst 2 2 <~ vx src 2 ;>
   mat dst 0 1 <~ vx src 5 ;>
   mat dst 0 2 <~ vx src 4 ;>
   mat dst 1 2 <~ vx src 3 ;>
   mat dst 1 0 <~ vx src 5 ;>
   mat dst 2 0 <~ vx src 4 ;>
   mat dst 2 1 <~ vx src 3) h.

End Fixed.
