(** Model of system::calculateSize (src/system.cpp:406-431) and of the padding in ChaiBuffer::setName. *)
From Coq Require Import List Arith NArith Bool.
From Verif Require Import Base.
Import ListNotations.
Set Implicit Arguments.
Local Open Scope N_scope.

Inductive char : Type := Digit (d : N) | Dot | Space | Letter (is : N) | B.
(** The decimal digits of a number, most significant first; [fuel] bounds their number. *)
Fixpoint decimal (fuel : nat) (n : N) : list char :=
  match fuel with
  | O => []
  | S f => if n <? 10 then [Digit n] else decimal f (n / 10) ++ [Digit (n mod 10)]
  end.
(** printf's %.1f of a nonnegative double which is num / 2 ^ shift: the exact value rounded to tenths, ties to even. *)
Definition tenths (num shift : N) : N :=
  let q := (num * 10) / 2 ^ shift in
  let r := (num * 10) mod 2 ^ shift in
  if 2 * r <? 2 ^ shift then q else if 2 ^ shift <? 2 * r then q + 1 else if N.even q then q else q + 1.
Definition print_tenths (t : N) : list char := decimal 70 (t / 10) ++ [Dot; Digit (t mod 10)].

Section Size.
(** The conversion of a size_t to double: exact up to 2 ^ 53 (premise where it matters). *)
Variable to_double : N -> N.

(** system.cpp:406-431; K, M and G are Letter 0, 1, 2. The division by a power of two is exact. *)
Definition unit_of (bytes : N) : N * N :=
  if negb (N.shiftr bytes 30 =? 0) then (2, 30)
  else if negb (N.shiftr bytes 20 =? 0) then (1, 20)
  else (0, 10).
Definition full_text (bytes : N) : list char :=
  let '(suffix, shift) := unit_of bytes in
  print_tenths (tenths (to_double bytes) shift) ++ [Space; Letter suffix; B].
(** snprintf with a buffer of 10 keeps at most 9 characters *)
Definition calculateSize (bytes : N) : list char := firstn 9 (full_text bytes).
(** ChaiBuffer.hpp:451-452: std::string( 9 - size.size(), ' ' ), an unsigned difference *)
Definition padded (bytes : N) : outcome (list char) :=
  let size := calculateSize bytes in
  n <- sub_ix 9 (length size) ;;
  Ok (repeat Space n ++ size).
End Size.
