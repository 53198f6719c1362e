(** Constructor arguments forwarded into a loop: arrayManipulation.hpp:282-309 and ArrayOfArrays.hpp:411-425.

    [new ( ptr + i ) T( std::forward< ARGS >( args )... )] is executed once per new element with the same
    arguments. Here the arguments are one T of the caller. [mv v] is the value that is left in an object
    holding [v] after something was constructed from it: for an lvalue or a type without its own move
    constructor [mv v = v]; for an rvalue of, say, std::string [mv v] is the empty string. *)
From Coq Require Import List Arith Bool.
From Verif Require Import Base Mem AoA BufferManip.
From Verif Require ArrayManip.
Import ListNotations.
Set Implicit Arguments.

Section Forward.
Variable V : Type.
Variable mv : V -> V.

(** arrayManipulation.hpp:282-309; also returns what is left in the caller's object *)
Definition resize_fwd (triv : bool) (b : buf V) (p size newSize : nat) (src : V) : outcome (buf V * V) :=
  b1 <- ArrayManip.destroy triv b (p + newSize) (size - newSize) ;;
  for_up (newSize - size) (fun i '(b, x) => b' <- construct triv b (p + i) x ;; Ok (b', mv x)) size (b1, src).

(** ArrayOfArrays.hpp:411-425 *)
Definition resizeArray_fwd {W} (chk tv tw dual : bool) (kind : bkind) (a : aoa V W) (i newSize : nat) (src : V) : outcome (aoa V W * V) :=
  _ <- check_array chk a i ;;
  c <- capacityOfArray chk a i ;;
  a1 <- (if c <? newSize then setCapacityOfArray chk tv tw dual kind a i newSize else Ok a) ;;
  prevSize <- sizeOfArray chk a1 i ;;
  _ <- check_array chk a1 i ;; o <- offset a1 i ;;
  '(b, x) <- resize_fwd tv (vals a1) o prevSize newSize src ;;
  a2 <- put_size (set_vals b a1) i newSize ;;
  Ok (a2, x).
End Forward.
