(** Model of src/limits.hpp: integerConversion. *)
From Coq Require Import ZArith Bool.
From Verif Require Import Base.
Set Implicit Arguments.

(** The integral types by sizeof and signedness, and bool, for which static_cast does not reduce modulo a
    power of two. [bytes] is any positive number. *)
Inductive ity : Type := TInt (bytes : Z) (signed : bool) | TBool.
Definition sizeof (t : ity) : Z := match t with TInt b _ => b | TBool => 1 end.
Definition is_signed (t : ity) : bool := match t with TInt _ s => s | TBool => false end.
Definition bits (t : ity) : Z := (8 * sizeof t)%Z.
(** NumericLimits< T >::min, max (limits.hpp:34-40) *)
Definition tmin (t : ity) : Z := if is_signed t then (- 2 ^ (bits t - 1))%Z else 0%Z.
Definition tmax (t : ity) : Z :=
  match t with TBool => 1%Z | TInt _ s => if s then (2 ^ (bits t - 1) - 1)%Z else (2 ^ bits t - 1)%Z end.

(** static_cast< T >( x ): to bool, non-zero is true; else reduction into the range of T. *)
Definition static_cast (t : ity) (x : Z) : Z :=
  match t with
  | TBool => if (x =? 0)%Z then 0%Z else 1%Z
  | TInt _ s => let m := (x mod 2 ^ bits t)%Z in if (s && (2 ^ (bits t - 1) <=? m)%Z)%bool then (m - 2 ^ bits t)%Z else m
  end.
(** The integral promotions (int has four bytes) and the usual arithmetic conversions: the type in which
    a value of type [t] is compared with one of type [u]. *)
Definition int_t : ity := TInt 4 true.
Definition promote (t : ity) : ity := if (sizeof t <? 4)%Z then int_t else t.
Definition common (t u : ity) : ity :=
  let p := promote t in let q := promote u in
  if eqb (is_signed p) (is_signed q) then (if (sizeof p <? sizeof q)%Z then q else p)
  else let (s, n) := if is_signed p then (p, q) else (q, p) in
       if (sizeof n <? sizeof s)%Z then s else n.
Definition gt (t : ity) (x : Z) (u : ity) (y : Z) : bool :=
  let c := common t u in (static_cast c y <? static_cast c x)%Z.
Definition lt (t : ity) (x : Z) (u : ity) (y : Z) : bool :=
  let c := common t u in (static_cast c x <? static_cast c y)%Z.

(** limits.hpp:114-116 sameSignedness, 123-125 canEasilyConvert *)
Definition sameSignedness (t u : ity) : bool := eqb (is_signed t) (is_signed u).
Definition canEasilyConvert (input output : ity) : bool :=
  ((sizeof input <? sizeof output) || ((sizeof input =? sizeof output) && sameSignedness input output))%Z%bool.
(** std::make_signed_t, std::make_unsigned_t; they do not exist for bool. *)
Definition make_signed (t : ity) : ity := TInt (sizeof t) true.
Definition make_unsigned (t : ity) : ity := TInt (sizeof t) false.
(** limits.hpp:137, 157, 178 integerConversion *)
Definition integerConversion (output input : ity) (x : Z) : outcome Z :=
  if canEasilyConvert input output then Ok (static_cast output x)
  else if negb (is_signed input) then
    _ <- error_if (gt input x output (tmax output)) ;;
    Ok (static_cast output x)
  else
    _ <- error_if (lt input x (make_signed output) (tmin output)) ;;
    let cu := if is_signed output then input else make_unsigned input in
    _ <- error_if (gt cu (static_cast cu x) output (tmax output)) ;;
    Ok (static_cast output x).
(** The third overload does not compile for a signed input and bool. *)
Definition compiles (output input : ity) : bool :=
  (canEasilyConvert input output || negb (is_signed input) || match output with TBool => false | _ => true end)%bool.
