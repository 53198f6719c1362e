(** The error macros of Macros.hpp as the preprocessor and the compiler treat them: tokens, expansion, C++
    operator precedence, and what runs. *)
From Coq Require Import List Arith ZArith Bool String.
From Verif Require Import Base.
Import ListNotations.
Set Implicit Arguments.

(** Binary operators of C++, without assignments, the comma, the conditional operator and <=>. *)
Inductive op : Type := Mul | Div | Mod | Add | Sub | Shl | Shr | Lt | Gt | Le | Ge | Eq | Ne | BAnd | BXor | BOr | LAnd | LOr.
(** C++ grammar, [expr.mul] to [expr.log.or]: larger binds tighter; all associate to the left. *)
Definition prec (o : op) : nat :=
  match o with
  | Mul | Div | Mod => 10
  | Add | Sub => 9
  | Shl | Shr => 8
  | Lt | Gt | Le | Ge => 7
  | Eq | Ne => 6
  | BAnd => 5 | BXor => 4 | BOr => 3 | LAnd => 2 | LOr => 1
  end.

(** An identifier [TId] stands for a variable or a call without side effects on the others. *)
Inductive token : Type :=
| TNum (z : Z) | TId (f : nat) | TStr (s : string) | TQuote (ts : list token) | TStream
| TLp | TRp | TNot | TOp (o : op).

Inductive expr : Type :=
| Num (z : Z) | Id (f : nat) | Str (s : string) | Quote (ts : list token) | Stream
| Paren (e : expr) | Not (e : expr) | Neg (e : expr)
| Bin (o : op) (l r : expr).

(** Precedence climbing. [parse_at n p ts]: the longest expression at the head of ts whose operators bind at least
    as tightly as p; [n] bounds the recursion. *)
Fixpoint parse_unary (n : nat) (ts : list token) : option (expr * list token) :=
  match n with
  | O => None
  | S n =>
    match ts with
    | TNum z :: r => Some (Num z, r)
    | TId f :: r => Some (Id f, r)
    | TStr s :: r => Some (Str s, r)
    | TQuote q :: r => Some (Quote q, r)
    | TStream :: r => Some (Stream, r)
    | TLp :: r => match parse_at n 0 r with Some (e, TRp :: r') => Some (Paren e, r') | _ => None end
    | TNot :: r => match parse_unary n r with Some (e, r') => Some (Not e, r') | None => None end
    | TOp Sub :: r => match parse_unary n r with Some (e, r') => Some (Neg e, r') | None => None end
    | _ => None
    end
  end
with parse_at (n : nat) (p : nat) (ts : list token) : option (expr * list token) :=
  match n with
  | O => None
  | S n => match parse_unary n ts with Some (l, r) => parse_more n p l r | None => None end
  end
with parse_more (n : nat) (p : nat) (l : expr) (ts : list token) : option (expr * list token) :=
  match n with
  | O => None
  | S n =>
    match ts with
    | TOp o :: r =>
        if p <=? prec o then
          match parse_at n (S (prec o)) r with Some (e, r') => parse_more n p (Bin o l e) r' | None => None end
        else Some (l, ts)
    | _ => Some (l, ts)
    end
  end.
Definition parse (ts : list token) : option expr :=
  match parse_at (3 * List.length ts + 3) 0 ts with Some (e, []) => Some e | _ => None end.

(** Types as far as they decide whether an expression compiles: numbers, string literals, std::ostream. *)
Inductive type : Type := Int | Text | Ostream.
Fixpoint type_of (e : expr) : option type :=
  match e with
  | Num _ | Id _ => Some Int
  | Str _ | Quote _ => Some Text
  | Stream => Some Ostream
  | Paren e => type_of e
  | Not e => match type_of e with Some _ => Some Int | None => None end
  | Neg e => match type_of e with Some Int => Some Int | _ => None end
  | Bin o l r =>
      match o, type_of l, type_of r with
      | Shl, Some Ostream, Some Int => Some Ostream
      | Shl, Some Ostream, Some Text => Some Ostream
      | LAnd, Some _, Some _ => Some Int
      | LOr, Some _, Some _ => Some Int
      | Add, Some Text, Some Int => Some Text
      | Add, Some Int, Some Text => Some Text
      | Sub, Some Text, Some Int => Some Text
      | _, Some Int, Some Int => Some Int
      | _, _, _ => None
      end
  end.

(** Numbers: the value and the identifiers evaluated, in order; None where C++ has no value. Integers are
    unbounded. *)
Section Eval.
Variable env : nat -> Z.
Definition truth (b : bool) : Z := if b then 1%Z else 0%Z.
Definition apply (o : op) (x y : Z) : option Z :=
  match o with
  | Mul => Some (x * y)%Z
  | Div => if (y =? 0)%Z then None else Some (Z.quot x y)
  | Mod => if (y =? 0)%Z then None else Some (Z.rem x y)
  | Add => Some (x + y)%Z
  | Sub => Some (x - y)%Z
  | Shl => if (y <? 0)%Z then None else Some (Z.shiftl x y)
  | Shr => if (y <? 0)%Z then None else Some (Z.shiftr x y)
  | Lt => Some (truth (x <? y)%Z)
  | Gt => Some (truth (y <? x)%Z)
  | Le => Some (truth (x <=? y)%Z)
  | Ge => Some (truth (y <=? x)%Z)
  | Eq => Some (truth (x =? y)%Z)
  | Ne => Some (truth (negb (x =? y)%Z))
  | BAnd => Some (Z.land x y)
  | BXor => Some (Z.lxor x y)
  | BOr => Some (Z.lor x y)
  | LAnd => Some (truth (negb (x =? 0)%Z && negb (y =? 0)%Z))
  | LOr => Some (truth (negb (x =? 0)%Z || negb (y =? 0)%Z))
  end.
Fixpoint eval (e : expr) : option (Z * list nat) :=
  match e with
  | Num z => Some (z, [])
  | Id f => Some (env f, [f])
  | Paren e => eval e
  | Not e => match eval e with Some (x, t) => Some (truth (x =? 0)%Z, t) | None => None end
  | Neg e => match eval e with Some (x, t) => Some (- x, t)%Z | None => None end
  | Bin o l r =>
      match eval l with
      | Some (x, t) =>
          match o with
          | LAnd => if (x =? 0)%Z then Some (0%Z, t)
                    else match eval r with Some (y, u) => Some (truth (negb (y =? 0)%Z), t ++ u) | None => None end
          | LOr => if negb (x =? 0)%Z then Some (1%Z, t)
                   else match eval r with Some (y, u) => Some (truth (negb (y =? 0)%Z), t ++ u) | None => None end
          | _ => match eval r with
                 | Some (y, u) => match apply o x y with Some z => Some (z, t ++ u) | None => None end
                 | None => None
                 end
          end
      | None => None
      end
  | Str _ | Quote _ | Stream => None
  end.

(** What an expression of stream type writes, and the identifiers it evaluates. *)
Inductive written : Type := WStr (s : string) | WQuote (ts : list token) | WNum (z : Z).
Fixpoint output (e : expr) : option (list written * list nat) :=
  match e with
  | Stream => Some ([], [])
  | Paren e => output e
  | Bin Shl l r =>
      match output l with
      | Some (w, t) =>
          match r with
          | Str s => Some (w ++ [WStr s], t)
          | Quote q => Some (w ++ [WQuote q], t)
          | _ => match eval r with Some (z, u) => Some (w ++ [WNum z], t ++ u) | None => None end
          end
      | None => None
      end
  | _ => None
  end.
End Eval.

(** Macros.hpp: the macros that test. *)
Inductive macro : Type :=
| ERROR_IF | THROW_IF | ASSERT_MSG | ASSERT
| ERROR_IF_OP_MSG | THROW_IF_OP_MSG | ASSERT_OP_MSG
| ERROR_IF_EQ_MSG | ERROR_IF_EQ | THROW_IF_EQ_MSG | THROW_IF_EQ
| ERROR_IF_NE_MSG | ERROR_IF_NE | THROW_IF_NE_MSG | THROW_IF_NE
| ERROR_IF_GT_MSG | ERROR_IF_GT | THROW_IF_GT_MSG | THROW_IF_GT
| ERROR_IF_GE_MSG | ERROR_IF_GE | THROW_IF_GE_MSG | THROW_IF_GE
| ERROR_IF_LT_MSG | ERROR_IF_LT | THROW_IF_LT_MSG | THROW_IF_LT
| ERROR_IF_LE_MSG | ERROR_IF_LE | THROW_IF_LE_MSG | THROW_IF_LE
| ASSERT_EQ_MSG | ASSERT_EQ | ASSERT_NE_MSG | ASSERT_NE
| ASSERT_GT_MSG | ASSERT_GT | ASSERT_GE_MSG | ASSERT_GE.

(** A replacement list: tokens, parameters and stringized parameters; the operators are passed as tokens. *)
Inductive item : Type := P (i : nat) | Q (i : nat) | T (t : token).
Inductive body : Type :=
| Use (m : macro) (args : list (list item))
| IfError (exp msg : nat)         (* 122-135: if( EXP ) { ... __oss << MSG << "\n"; ... callErrorHandler(); } *)
| IfThrow (exp msg : nat)         (* 168-181: if( EXP ) { ... __oss << MSG << "\n"; ... throw TYPE( ... ); } *)
| Void.                           (* ((void) 0) *)

Local Open Scope string_scope.
Notation "'``' o" := (T (TOp o)) (at level 0, o at level 0).
Notation str s := (T (TStr s)).
Definition empty : list item := [str ""].

(** Macros.hpp:244-249, 260-265: msg << "\n" << "Expected " << #lhs << " " << #NOP << " " << #rhs << "\n" << ... *)
Definition op_message (msg lhs nop rhs : nat) : list item :=
  [P msg; ``Shl; str "\n"; ``Shl; str "Expected "; ``Shl; Q lhs; ``Shl; str " "; ``Shl; Q nop; ``Shl; str " "; ``Shl; Q rhs;
   ``Shl; str "\n"; ``Shl; str "  "; ``Shl; Q lhs; ``Shl; str " = "; ``Shl; P lhs; ``Shl; str "\n";
   ``Shl; str "  "; ``Shl; Q rhs; ``Shl; str " = "; ``Shl; P rhs; ``Shl; str "\n"].
(** Macros.hpp:466-470 *)
Definition assert_message (msg lhs rhs : nat) : list item :=
  [P msg; ``Shl; str "\n"; ``Shl; str "  "; ``Shl; Q lhs; ``Shl; str " = "; ``Shl; P lhs; ``Shl; str "\n";
   ``Shl; str "  "; ``Shl; Q rhs; ``Shl; str " = "; ``Shl; P rhs; ``Shl; str "\n"].

(** The definitions, parameters numbered from 0 in the order of the header. *)
Definition definition (ndebug : bool) (m : macro) : body :=
  match m with
  | ERROR_IF => IfError 0 1
  | THROW_IF => IfThrow 0 1
  | ASSERT_MSG => if ndebug then Void else Use ERROR_IF [[T TNot; T TLp; P 0; T TRp]; [P 1]]        (* 156-160 *)
  | ASSERT => Use ASSERT_MSG [[P 0]; empty]                                                         (* 184 *)
  | ERROR_IF_OP_MSG => Use ERROR_IF [[P 0; P 1; P 3]; op_message 4 0 2 3]                           (* 244 *)
  | THROW_IF_OP_MSG => Use THROW_IF [[P 0; P 1; P 3]; op_message 4 0 2 3; [P 5]]                    (* 260 *)
  | ERROR_IF_EQ_MSG => Use ERROR_IF_OP_MSG [[P 0]; [``Eq]; [``Ne]; [P 1]; [P 2]]                    (* 273 *)
  | THROW_IF_EQ_MSG => Use THROW_IF_OP_MSG [[P 0]; [``Eq]; [``Ne]; [P 1]; [P 2]; [P 3]]             (* 282 *)
  | ERROR_IF_EQ => Use ERROR_IF_EQ_MSG [[P 0]; [P 1]; empty]                                        (* 289 *)
  | THROW_IF_EQ => Use THROW_IF_EQ_MSG [[P 0]; [P 1]; empty; [P 2]]                                 (* 297 *)
  | ERROR_IF_NE_MSG => Use ERROR_IF_OP_MSG [[P 0]; [``Ne]; [``Eq]; [P 1]; [P 2]]                    (* 305 *)
  | THROW_IF_NE_MSG => Use THROW_IF_OP_MSG [[P 0]; [``Ne]; [``Eq]; [P 1]; [P 2]; [P 3]]             (* 314 *)
  | ERROR_IF_NE => Use ERROR_IF_NE_MSG [[P 0]; [P 1]; empty]                                        (* 321 *)
  | THROW_IF_NE => Use THROW_IF_NE_MSG [[P 0]; [P 1]; empty; [P 2]]                                 (* 329 *)
  | ERROR_IF_GT_MSG => Use ERROR_IF_OP_MSG [[P 0]; [``Gt]; [``Le]; [P 1]; [P 2]]                    (* 337 *)
  | THROW_IF_GT_MSG => Use THROW_IF_OP_MSG [[P 0]; [``Gt]; [``Le]; [P 1]; [P 2]; [P 3]]             (* 346 *)
  | ERROR_IF_GT => Use ERROR_IF_GT_MSG [[P 0]; [P 1]; empty]                                        (* 353 *)
  | THROW_IF_GT => Use THROW_IF_GT_MSG [[P 0]; [P 1]; empty; [P 2]]                                 (* 361 *)
  | ERROR_IF_GE_MSG => Use ERROR_IF_OP_MSG [[P 0]; [``Ge]; [``Lt]; [P 1]; [P 2]]                    (* 369 *)
  | THROW_IF_GE_MSG => Use THROW_IF_OP_MSG [[P 0]; [``Ge]; [``Lt]; [P 1]; [P 2]; [P 3]]             (* 378 *)
  | ERROR_IF_GE => Use ERROR_IF_GE_MSG [[P 0]; [P 1]; empty]                                        (* 385 *)
  | THROW_IF_GE => Use THROW_IF_GE_MSG [[P 0]; [P 1]; empty; [P 2]]                                 (* 393 *)
  | ERROR_IF_LT_MSG => Use ERROR_IF_OP_MSG [[P 0]; [``Lt]; [``Ge]; [P 1]; [P 2]]                    (* 401 *)
  | THROW_IF_LT_MSG => Use THROW_IF_OP_MSG [[P 0]; [``Lt]; [``Ge]; [P 1]; [P 2]; [P 3]]             (* 410 *)
  | ERROR_IF_LT => Use ERROR_IF_LT_MSG [[P 0]; [P 1]; empty]                                        (* 417 *)
  | THROW_IF_LT => Use THROW_IF_LT_MSG [[P 0]; [P 1]; empty; [P 2]]                                 (* 425 *)
  | ERROR_IF_LE_MSG => Use ERROR_IF_OP_MSG [[P 0]; [``Le]; [``Gt]; [P 1]; [P 2]]                    (* 433 *)
  | THROW_IF_LE_MSG => Use THROW_IF_OP_MSG [[P 0]; [``Le]; [``Gt]; [P 1]; [P 2]; [P 3]]             (* 442 *)
  | ERROR_IF_LE => Use ERROR_IF_GE_MSG [[P 0]; [P 1]; empty]                                        (* 449: GE *)
  | THROW_IF_LE => Use THROW_IF_GE_MSG [[P 0]; [P 1]; empty; [P 2]]                                 (* 457: GE *)
  | ASSERT_OP_MSG => Use ASSERT_MSG [[P 0; P 1; P 2]; assert_message 3 0 2]                         (* 466 *)
  | ASSERT_EQ_MSG => Use ASSERT_OP_MSG [[P 0]; [``Eq]; [P 1]; [P 2]]                                (* 478 *)
  | ASSERT_EQ => Use ASSERT_EQ_MSG [[P 0]; [P 1]; empty]                                            (* 485 *)
  | ASSERT_NE_MSG => Use ASSERT_OP_MSG [[P 0]; [``Ne]; [P 1]; [P 2]]                                (* 493 *)
  | ASSERT_NE => Use ASSERT_NE_MSG [[P 0]; [P 1]; empty]                                            (* 500 *)
  | ASSERT_GT_MSG => Use ASSERT_OP_MSG [[P 0]; [``Gt]; [P 1]; [P 2]]                                (* 508 *)
  | ASSERT_GT => Use ASSERT_GT_MSG [[P 0]; [P 1]; empty]                                            (* 515 *)
  | ASSERT_GE_MSG => Use ASSERT_OP_MSG [[P 0]; [``Ge]; [P 1]; [P 2]]                                (* 523 *)
  | ASSERT_GE => Use ASSERT_GE_MSG [[P 0]; [P 1]; empty]                                            (* 530 *)
  end.

Definition subst (args : list (list token)) (x : item) : list token :=
  match x with P i => nth i args [] | Q i => [TQuote (nth i args [])] | T t => [t] end.

(** What is left after preprocessing. *)
Inductive code : Type := CError (exp msg : list token) | CThrow (exp msg : list token) | CVoid.
(** Nesting is at most five deep. Arguments are taken to contain no macros. *)
Fixpoint expand (n : nat) (ndebug : bool) (m : macro) (args : list (list token)) : option code :=
  match n with
  | O => None
  | S n =>
      match definition ndebug m with
      | Use m' items => expand n ndebug m' (map (flat_map (subst args)) items)
      | IfError e s => Some (CError (nth e args []) (nth s args []))
      | IfThrow e s => Some (CThrow (nth e args []) (nth s args []))
      | Void => Some CVoid
      end
  end.
Definition expansion (ndebug : bool) (m : macro) (args : list (list token)) : option code := expand 6 ndebug m args.

(** [__oss << MSG << "\n"] *)
Definition message (msg : list token) : list token := (TStream :: TOp Shl :: msg) ++ [TOp Shl; TStr "\n"].

Definition compiles (c : code) : bool :=
  match c with
  | CVoid => true
  | CError e s | CThrow e s =>
      match parse e, parse (message s) with
      | Some e', Some s' =>
          match type_of e', type_of s' with Some _, Some _ => true | _, _ => false end
      | _, _ => false
      end
  end.

(** What runs: nothing happens; the error handler is called (system.cpp) or the exception thrown after the message
    has been put together. The identifiers evaluated are kept. None: does not compile, or no value. *)
Inductive effect : Type := Silent (t : list nat) | Handler (t : list nat) (w : list written) | Exception (t : list nat) (w : list written).
Definition run_code (env : nat -> Z) (c : code) : option effect :=
  if negb (compiles c) then None else
  match c with
  | CVoid => Some (Silent [])
  | CError e s | CThrow e s =>
      match parse e, parse (message s) with
      | Some e', Some s' =>
          match eval env e' with
          | Some (z, t) =>
              if (z =? 0)%Z then Some (Silent t)
              else match output env s' with
                   | Some (w, u) => Some (match c with CThrow _ _ => Exception (t ++ u) w | _ => Handler (t ++ u) w end)
                   | None => None
                   end
          | None => None
          end
      | _, _ => None
      end
  end.
