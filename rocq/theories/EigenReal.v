(** The real numbers as a floating point type without rounding: [None] is the result of an operation without a value (the root of a
    negative number, a division by zero, an arc cosine outside of [-1, 1]) and of every operation on such a result; a comparison with it
    is false, as with a NaN. *)
From Coq Require Import Reals List Arith Bool Lra.
From Verif Require Import Base Tensor Eigen.
Set Implicit Arguments.
Local Open Scope R_scope.

Definition lift1 (f : R -> R) (x : option R) : option R := match x with Some a => Some (f a) | None => None end.
Definition lift2 (f : R -> R -> R) (x y : option R) : option R := match x, y with Some a, Some b => Some (f a b) | _, _ => None end.
Definition rdiv (x y : option R) : option R :=
  match x, y with Some a, Some b => if Req_EM_T b 0 then None else Some (a / b) | _, _ => None end.
Definition rsqrt (x : option R) : option R := match x with Some a => if Rlt_dec a 0 then None else Some (sqrt a) | None => None end.
Definition racos (x : option R) : option R :=
  match x with Some a => if Rle_dec (-1) a then if Rle_dec a 1 then Some (acos a) else None else None | None => None end.
Definition rgt (x y : option R) : bool := match x, y with Some a, Some b => if Rlt_dec b a then true else false | _, _ => false end.
Definition rle (x y : option R) : bool := match x, y with Some a, Some b => if Rle_dec a b then true else false | _, _ => false end.

Definition rarith : arith (option R) :=
  {| zero := Some 0; one := Some 1; add := lift2 Rplus; sub := lift2 Rminus; mul := lift2 Rmult; div := rdiv; opp := lift1 Ropp |}.
(** [eps] stands for NumericLimits< FloatingPoint >::epsilon; the literal squareRootThree is the root. *)
Definition rfloating (eps : R) : floating (option R) :=
  {| fabs := lift1 Rabs; fmax := lift2 Rmax; fsqrt := rsqrt; finvSqrt := fun x => rdiv (Some 1) (rsqrt x); facos := racos;
     fsin := lift1 sin; fcos := lift1 cos; fgt := rgt; fle := rle; epsilon := Some eps; squareRootThree := Some (sqrt 3) |}.
