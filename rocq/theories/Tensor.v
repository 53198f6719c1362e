(** Model of src/genericTensorOps.hpp: operations on vectors and matrices of compile time sizes. All the operands live in one
    block of memory, so that aliasing operands are covered. A slot of the block is [None] while nothing was stored in it;
    reading it then is undefined. An operand is the slot its operator[] gives for each index, together with its extents;
    C arrays, Arrays, ArrayViews and ArraySlices of any permutation and strides are all of this form. The element type is
    abstract with its operators, which need not obey any law: the theorems that are about the order of the operations hold
    for floating point numbers too. All operands share one element type. *)
From Coq Require Import List Arith Bool.
From Verif Require Import Base.
Import ListNotations.
Set Implicit Arguments.

(** A vector argument: slot of [ i ] and size( 0 ). *)
Record vref := VRef { vat : nat -> nat; vlen : nat }.
(** A matrix argument: slot of [ i ][ j ], size( 0 ) and size( 1 ). *)
Record mref := MRef { mat : nat -> nat -> nat; mrows : nat; mcols : nat }.
(** matrix[ i ] *)
Definition row (m : mref) (i : nat) : vref := VRef (mat m i) (mcols m).
(** C arrays T x[ n ] and T x[ n ][ m ] that start at slot [base]. *)
Definition carray (base n : nat) : vref := VRef (fun i => base + i) n.
Definition cmatrix (base n m : nat) : mref := MRef (fun i j => base + (i * m + j)) n m.

(** genericTensorOps.hpp:268-270 *)
Definition SYM_SIZE (n : nat) : nat := (n * (n + 1)) / 2.

(** The operators of the element type, and the literals 0 and 1 converted to it. *)
Record arith T := Arith {
  zero : T; one : T;
  add : T -> T -> T; sub : T -> T -> T; mul : T -> T -> T; div : T -> T -> T; opp : T -> T }.

Section Tensor.
Variable T : Type.
Variable ar : arith T.
Variable chk : bool. (* LVARRAY_BOUNDS_CHECK *)
Notation memory := (list (option T)).

(** Expressions and assignments. *)
Definition load (a : nat) (h : memory) : outcome T :=
  c <- aget h a ;; match c with Some v => Ok v | None => Fault FRead end.
Definition expr := memory -> outcome T.
Definition command := memory -> outcome memory.
Definition lit (v : T) : expr := fun _ => Ok v.
Definition bin (f : T -> T -> T) (x y : expr) : expr := fun h => a <- x h ;; b <- y h ;; Ok (f a b).
Definition un (f : T -> T) (x : expr) : expr := fun h => a <- x h ;; Ok (f a).
Definition vx (v : vref) (i : nat) : expr := load (vat v i).
Definition mx (m : mref) (i j : nat) : expr := load (mat m i j).
Definition assign_at (a : nat) (e : expr) : command := fun h => v <- e h ;; aset h a (Some v).
Definition andthen (c d : command) : command := fun h => h' <- c h ;; d h'.
(** [for( i = s; i < s + n; ++i )] *)
Definition loop (s n : nat) (c : nat -> command) : command := fun h => for_up n c s h.
(** A block of [n] local variables, given by its first slot. *)
Definition with_local {A} (n : nat) (c : nat -> memory -> outcome (memory * A)) (h : memory) : outcome (memory * A) :=
  '(h', r) <- c (length h) (h ++ repeat None n) ;; Ok (firstn (length h) h', r).

Notation "x [+] y" := (bin (add ar) x y) (at level 50, left associativity).
Notation "x [-] y" := (bin (sub ar) x y) (at level 50, left associativity).
Notation "x [*] y" := (bin (mul ar) x y) (at level 40, left associativity).
Notation "x [/] y" := (bin (div ar) x y) (at level 40, left associativity).
Notation "a <~ e" := (assign_at a e) (at level 60).
Notation "c ;> d" := (andthen c d) (at level 61, right associativity).

(** genericTensorOps.hpp:228-242 and 180-197 (for C arrays and types with SIZE the sizes are checked by the compiler). *)
Definition check1 (n : nat) (v : vref) : outcome unit := check_if chk (negb (vlen v =? n)).
(** genericTensorOps.hpp:248-264 and 199-222 *)
Definition check2 (n m : nat) (a : mref) : outcome unit :=
  _ <- check_if chk (negb (mrows a =? n)) ;; check_if chk (negb (mcols a =? m)).

(** genericTensorOps.hpp:279-300. [abs] and [max] are math::abs and math::max. *)
Definition maxAbsoluteEntry (abs : T -> T) (max : T -> T -> T) (n : nat) (v : vref) (h : memory) : outcome T :=
  _ <- check1 n v ;;
  x <- vx v 0 h ;;
  for_up n (fun i maxVal => y <- vx v i h ;; Ok (max maxVal (abs y))) 0 (abs x).

(** genericTensorOps.hpp:302-321 *)
Definition fill (n : nat) (v : vref) (value : T) : command := fun h =>
  _ <- check1 n v ;;
  loop 0 n (fun i => vat v i <~ lit value) h.
(** genericTensorOps.hpp:323-347 *)
Definition fillM (n m : nat) (a : mref) (value : T) : command := fun h =>
  _ <- check2 n m a ;;
  loop 0 n (fun i => loop 0 m (fun j => mat a i j <~ lit value)) h.

(** genericTensorOps.hpp:349-371 *)
Definition copy (n : nat) (dst src : vref) : command := fun h =>
  _ <- check1 n dst ;; _ <- check1 n src ;;
  loop 0 n (fun i => vat dst i <~ vx src i) h.
(** genericTensorOps.hpp:373-400 *)
Definition copyM (n m : nat) (dst src : mref) : command := fun h =>
  _ <- check2 n m dst ;; _ <- check2 n m src ;;
  loop 0 n (fun i => loop 0 m (fun j => mat dst i j <~ mx src i j)) h.

(** genericTensorOps.hpp:402-421 *)
Definition scale (n : nat) (v : vref) (s : T) : command := fun h =>
  _ <- check1 n v ;;
  loop 0 n (fun i => vat v i <~ vx v i [*] lit s) h.
(** genericTensorOps.hpp:423-447 *)
Definition scaleM (n m : nat) (a : mref) (s : T) : command := fun h =>
  _ <- check2 n m a ;;
  loop 0 n (fun i => loop 0 m (fun j => mat a i j <~ mx a i j [*] lit s)) h.

(** genericTensorOps.hpp:449-473 *)
Definition scaledCopy (n : nat) (dst src : vref) (s : T) : command := fun h =>
  _ <- check1 n dst ;; _ <- check1 n src ;;
  loop 0 n (fun i => vat dst i <~ lit s [*] vx src i) h.
(** genericTensorOps.hpp:475-504 *)
Definition scaledCopyM (n m : nat) (dst src : mref) (s : T) : command := fun h =>
  _ <- check2 n m dst ;; _ <- check2 n m src ;;
  loop 0 n (fun i => loop 0 m (fun j => mat dst i j <~ lit s [*] mx src i j)) h.

(** genericTensorOps.hpp:506-526 *)
Definition addScalar (n : nat) (v : vref) (s : T) : command := fun h =>
  _ <- check1 n v ;;
  loop 0 n (fun i => vat v i <~ vx v i [+] lit s) h.

(** genericTensorOps.hpp:528-550 *)
Definition addV (n : nat) (dst src : vref) : command := fun h =>
  _ <- check1 n dst ;; _ <- check1 n src ;;
  loop 0 n (fun i => vat dst i <~ vx dst i [+] vx src i) h.
(** genericTensorOps.hpp:552-579 *)
Definition addM (n m : nat) (dst src : mref) : command := fun h =>
  _ <- check2 n m dst ;; _ <- check2 n m src ;;
  loop 0 n (fun i => loop 0 m (fun j => mat dst i j <~ mx dst i j [+] mx src i j)) h.

(** genericTensorOps.hpp:581-603 *)
Definition subtract (n : nat) (dst src : vref) : command := fun h =>
  _ <- check1 n dst ;; _ <- check1 n src ;;
  loop 0 n (fun i => vat dst i <~ vx dst i [-] vx src i) h.

(** genericTensorOps.hpp:605-629 *)
Definition scaledAdd (n : nat) (dst src : vref) (s : T) : command := fun h =>
  _ <- check1 n dst ;; _ <- check1 n src ;;
  loop 0 n (fun i => vat dst i <~ vx dst i [+] lit s [*] vx src i) h.
(** genericTensorOps.hpp:631-661 *)
Definition scaledAddM (n m : nat) (dst src : mref) (s : T) : command := fun h =>
  _ <- check2 n m dst ;; _ <- check2 n m src ;;
  loop 0 n (fun i => loop 0 m (fun j => mat dst i j <~ mx dst i j [+] lit s [*] mx src i j)) h.

(** genericTensorOps.hpp:663-689 *)
Definition hadamardProduct (n : nat) (dst a b : vref) : command := fun h =>
  _ <- check1 n dst ;; _ <- check1 n a ;; _ <- check1 n b ;;
  loop 0 n (fun i => vat dst i <~ vx a i [*] vx b i) h.

(** genericTensorOps.hpp:699-717 *)
Definition l2NormSquared (n : nat) (v : vref) (h : memory) : outcome T :=
  _ <- check1 n v ;;
  norm <- (vx v 0 [*] vx v 0) h ;;
  for_up (n - 1) (fun i norm => (lit norm [+] vx v i [*] vx v i) h) 1 norm.

(** genericTensorOps.hpp:719-733. [sqrt] is math::sqrt. *)
Definition l2Norm (sqrt : T -> T) (n : nat) (v : vref) (h : memory) : outcome T :=
  _ <- check1 n v ;;
  x <- l2NormSquared n v h ;; Ok (sqrt x).

(** genericTensorOps.hpp:735-753. [invSqrt] is math::invSqrt. *)
Definition normalize (invSqrt : T -> T) (n : nat) (v : vref) (h : memory) : outcome (memory * T) :=
  _ <- check1 n v ;;
  x <- l2NormSquared n v h ;;
  let normInv := invSqrt x in
  h <- scale n v normInv h ;;
  Ok (h, div ar (one ar) normInv).

(** genericTensorOps.hpp:755-780 *)
Definition AiBi (n : nat) (a b : vref) (h : memory) : outcome T :=
  _ <- check1 n a ;; _ <- check1 n b ;;
  result <- (vx a 0 [*] vx b 0) h ;;
  for_up (n - 1) (fun i result => (lit result [+] vx a i [*] vx b i) h) 1 result.

(** genericTensorOps.hpp:782-803 *)
Definition crossProduct (dst a b : vref) : command := fun h =>
  _ <- check1 3 dst ;; _ <- check1 3 a ;; _ <- check1 3 b ;;
  (vat dst 0 <~ vx a 1 [*] vx b 2 [-] vx a 2 [*] vx b 1 ;>
   vat dst 1 <~ vx a 2 [*] vx b 0 [-] vx a 0 [*] vx b 2 ;>
   vat dst 2 <~ vx a 0 [*] vx b 1 [-] vx a 1 [*] vx b 0) h.

(** genericTensorOps.hpp:813-844 *)
Definition Rij_eq_AiBj (n m : nat) (dst : mref) (a b : vref) : command := fun h =>
  _ <- check2 n m dst ;; _ <- check1 n a ;; _ <- check1 m b ;;
  loop 0 n (fun i => loop 0 m (fun j => mat dst i j <~ vx a i [*] vx b j)) h.
(** genericTensorOps.hpp:846-877 *)
Definition Rij_add_AiBj (n m : nat) (dst : mref) (a b : vref) : command := fun h =>
  _ <- check2 n m dst ;; _ <- check1 n a ;; _ <- check1 m b ;;
  loop 0 n (fun i => loop 0 m (fun j => mat dst i j <~ mx dst i j [+] vx a i [*] vx b j)) h.

(** genericTensorOps.hpp:879-911 *)
Definition Ri_eq_AijBj (n m : nat) (dst : vref) (a : mref) (b : vref) : command := fun h =>
  _ <- check1 n dst ;; _ <- check2 n m a ;; _ <- check1 m b ;;
  loop 0 n (fun i =>
    vat dst i <~ mx a i 0 [*] vx b 0 ;>
    loop 1 (m - 1) (fun j => vat dst i <~ vx dst i [+] mx a i j [*] vx b j)) h.
(** genericTensorOps.hpp:913-944 *)
Definition Ri_add_AijBj (n m : nat) (dst : vref) (a : mref) (b : vref) : command := fun h =>
  _ <- check1 n dst ;; _ <- check2 n m a ;; _ <- check1 m b ;;
  loop 0 n (fun i => loop 0 m (fun j => vat dst i <~ vx dst i [+] mx a i j [*] vx b j)) h.
(** genericTensorOps.hpp:946-979 *)
Definition Ri_eq_AjiBj (n m : nat) (dst : vref) (a : mref) (b : vref) : command := fun h =>
  _ <- check1 n dst ;; _ <- check2 m n a ;; _ <- check1 m b ;;
  loop 0 n (fun i =>
    vat dst i <~ mx a 0 i [*] vx b 0 ;>
    loop 1 (m - 1) (fun j => vat dst i <~ vx dst i [+] mx a j i [*] vx b j)) h.
(** genericTensorOps.hpp:981-1013 *)
Definition Ri_add_AjiBj (n m : nat) (dst : vref) (a : mref) (b : vref) : command := fun h =>
  _ <- check1 n dst ;; _ <- check2 m n a ;; _ <- check1 m b ;;
  loop 0 n (fun i => loop 0 m (fun j => vat dst i <~ vx dst i [+] mx a j i [*] vx b j)) h.

(** genericTensorOps.hpp:1021-1049 *)
Definition transpose (n m : nat) (dst src : mref) : command := fun h =>
  _ <- check2 n m dst ;; _ <- check2 m n src ;;
  loop 0 m (fun i => loop 0 n (fun j => mat dst j i <~ mx src i j)) h.

(** genericTensorOps.hpp:1051-1095 *)
Definition Rij_eq_AikBkj (n m p : nat) (dst a b : mref) : command := fun h =>
  _ <- check2 n m dst ;; _ <- check2 n p a ;; _ <- check2 p m b ;;
  loop 0 n (fun i => loop 0 m (fun j =>
    mat dst i j <~ mx a i 0 [*] mx b 0 j ;>
    loop 1 (p - 1) (fun k => mat dst i j <~ mx dst i j [+] mx a i k [*] mx b k j))) h.
(** genericTensorOps.hpp:1097-1140 *)
Definition Rij_add_AikBkj (n m p : nat) (dst a b : mref) : command := fun h =>
  _ <- check2 n m dst ;; _ <- check2 n p a ;; _ <- check2 p m b ;;
  loop 0 n (fun i => loop 0 m (fun j =>
    loop 0 p (fun k => mat dst i j <~ mx dst i j [+] mx a i k [*] mx b k j))) h.
(** genericTensorOps.hpp:1142-1186 *)
Definition Rij_eq_AikBjk (n m p : nat) (dst a b : mref) : command := fun h =>
  _ <- check2 n m dst ;; _ <- check2 n p a ;; _ <- check2 m p b ;;
  loop 0 n (fun i => loop 0 m (fun j =>
    mat dst i j <~ mx a i 0 [*] mx b j 0 ;>
    loop 1 (p - 1) (fun k => mat dst i j <~ mx dst i j [+] mx a i k [*] mx b j k))) h.
(** genericTensorOps.hpp:1188-1230 *)
Definition Rij_add_AikBjk (n m p : nat) (dst a b : mref) : command := fun h =>
  _ <- check2 n m dst ;; _ <- check2 n p a ;; _ <- check2 m p b ;;
  loop 0 n (fun i => loop 0 m (fun j =>
    loop 0 p (fun k => mat dst i j <~ mx dst i j [+] mx a i k [*] mx b j k))) h.
(** genericTensorOps.hpp:1232-1266 *)
Definition Rij_add_AikAjk (n m : nat) (dst a : mref) : command := fun h =>
  _ <- check2 n n dst ;; _ <- check2 n m a ;;
  loop 0 n (fun i => loop 0 n (fun j =>
    loop 0 m (fun k => mat dst i j <~ mx dst i j [+] mx a i k [*] mx a j k))) h.
(** genericTensorOps.hpp:1268-1311 *)
Definition Rij_eq_AkiBkj (n m p : nat) (dst a b : mref) : command := fun h =>
  _ <- check2 n m dst ;; _ <- check2 p n a ;; _ <- check2 p m b ;;
  loop 0 n (fun i => loop 0 m (fun j =>
    mat dst i j <~ mx a 0 i [*] mx b 0 j ;>
    loop 1 (p - 1) (fun k => mat dst i j <~ mx dst i j [+] mx a k i [*] mx b k j))) h.
(** genericTensorOps.hpp:1313-1348 *)
Definition Rij_eq_AkiAkj (n m : nat) (dst a : mref) : command := fun h =>
  _ <- check2 n n dst ;; _ <- check2 m n a ;;
  loop 0 n (fun i => loop 0 n (fun j =>
    mat dst i j <~ mx a 0 i [*] mx a 0 j ;>
    loop 1 (m - 1) (fun k => mat dst i j <~ mx dst i j [+] mx a k i [*] mx a k j))) h.
(** genericTensorOps.hpp:1350-1391 *)
Definition Rij_add_AkiBkj (n m p : nat) (dst a b : mref) : command := fun h =>
  _ <- check2 n m dst ;; _ <- check2 p n a ;; _ <- check2 p m b ;;
  loop 0 n (fun i => loop 0 m (fun j =>
    loop 0 p (fun k => mat dst i j <~ mx dst i j [+] mx a k i [*] mx b k j))) h.

(** genericTensorOps.hpp:1401-1424 *)
Definition transpose_in_place (n : nat) (a : mref) : command := fun h =>
  _ <- check2 n n a ;;
  loop 0 n (fun i => loop (i + 1) (n - (i + 1)) (fun j h =>
    entryIJ <- mx a i j h ;;
    (mat a i j <~ mx a j i ;> mat a j i <~ lit entryIJ) h)) h.

(** genericTensorOps.hpp:1426-1445 *)
Definition addIdentity (n : nat) (a : mref) (s : T) : command := fun h =>
  _ <- check2 n n a ;;
  loop 0 n (fun i => mat a i i <~ mx a i i [+] lit s) h.

(** genericTensorOps.hpp:1447-1467 *)
Definition trace (n : nat) (a : mref) (h : memory) : outcome T :=
  _ <- check2 n n a ;;
  t <- mx a 0 0 h ;;
  for_up (n - 1) (fun i t => (lit t [+] mx a i i) h) 1 t.

(** genericTensorOps.hpp:1477-1496 *)
Definition symAddIdentity (n : nat) (v : vref) (s : T) : command := fun h =>
  _ <- check1 (SYM_SIZE n) v ;;
  loop 0 n (fun i => vat v i <~ vx v i [+] lit s) h.

(** genericTensorOps.hpp:1498-1518 *)
Definition symTrace (n : nat) (v : vref) (h : memory) : outcome T :=
  _ <- check1 (SYM_SIZE n) v ;;
  t <- vx v 0 h ;;
  for_up (n - 1) (fun i t => (lit t [+] vx v i) h) 1 t.

End Tensor.
