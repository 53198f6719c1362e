(** What the names and comments of Macros.hpp promise. *)
From Coq Require Import List Arith ZArith Bool String.
From Verif Require Import Macros.
Import ListNotations.
Set Implicit Arguments.

(** How a macro reports, and the relation it is named after. *)
Inductive how : Type := ByHandler | ByException | ByAssert.
Definition promise (m : macro) : option (how * op * bool) :=
  match m with
  | ERROR_IF_EQ => Some (ByHandler, Eq, false) | ERROR_IF_EQ_MSG => Some (ByHandler, Eq, true)
  | ERROR_IF_NE => Some (ByHandler, Ne, false) | ERROR_IF_NE_MSG => Some (ByHandler, Ne, true)
  | ERROR_IF_GT => Some (ByHandler, Gt, false) | ERROR_IF_GT_MSG => Some (ByHandler, Gt, true)
  | ERROR_IF_GE => Some (ByHandler, Ge, false) | ERROR_IF_GE_MSG => Some (ByHandler, Ge, true)
  | ERROR_IF_LT => Some (ByHandler, Lt, false) | ERROR_IF_LT_MSG => Some (ByHandler, Lt, true)
  | ERROR_IF_LE => Some (ByHandler, Le, false) | ERROR_IF_LE_MSG => Some (ByHandler, Le, true)
  | THROW_IF_EQ => Some (ByException, Eq, false) | THROW_IF_EQ_MSG => Some (ByException, Eq, true)
  | THROW_IF_NE => Some (ByException, Ne, false) | THROW_IF_NE_MSG => Some (ByException, Ne, true)
  | THROW_IF_GT => Some (ByException, Gt, false) | THROW_IF_GT_MSG => Some (ByException, Gt, true)
  | THROW_IF_GE => Some (ByException, Ge, false) | THROW_IF_GE_MSG => Some (ByException, Ge, true)
  | THROW_IF_LT => Some (ByException, Lt, false) | THROW_IF_LT_MSG => Some (ByException, Lt, true)
  | THROW_IF_LE => Some (ByException, Le, false) | THROW_IF_LE_MSG => Some (ByException, Le, true)
  | ASSERT_EQ => Some (ByAssert, Eq, false) | ASSERT_EQ_MSG => Some (ByAssert, Eq, true)
  | ASSERT_NE => Some (ByAssert, Ne, false) | ASSERT_NE_MSG => Some (ByAssert, Ne, true)
  | ASSERT_GT => Some (ByAssert, Gt, false) | ASSERT_GT_MSG => Some (ByAssert, Gt, true)
  | ASSERT_GE => Some (ByAssert, Ge, false) | ASSERT_GE_MSG => Some (ByAssert, Ge, true)
  | _ => None
  end.

(** The arguments of a use: the two operands, a string literal where there is a message, the type to throw. *)
Definition arguments (h : how) (msg : bool) (lhs rhs : list token) (s : string) (ty : list token) : list (list token) :=
  [lhs; rhs] ++ (if msg then [[TStr s]] else []) ++ (match h with ByException => [ty] | _ => [] end).

Definition holds (r : op) (x y : Z) : bool :=
  match r with
  | Eq => (x =? y)%Z | Ne => negb (x =? y)%Z
  | Gt => (x >? y)%Z | Ge => (x >=? y)%Z | Lt => (x <? y)%Z | Le => (x <=? y)%Z
  | _ => false
  end.
Definition opposite (r : op) : op :=
  match r with Eq => Ne | Ne => Eq | Gt => Le | Le => Gt | Ge => Lt | Lt => Ge | o => o end.

(** Numbers only. *)
Fixpoint numeric (e : expr) : bool :=
  match e with
  | Num _ | Id _ => true
  | Str _ | Quote _ | Stream => false
  | Paren e | Not e | Neg e => numeric e
  | Bin _ l r => (numeric l && numeric r)%bool
  end.
(** The tightness of the outermost operator; 11 when there is none outside parentheses. *)
Definition level (e : expr) : nat := match e with Bin o _ _ => prec o | _ => 11 end.
(** An operand that can stand unparenthesised in a chain of <<: + - * / % and tighter, or itself such a chain. *)
Fixpoint printable (e : expr) : bool :=
  match e with
  | Bin Shl l _ => printable l
  | Bin o _ _ => 9 <=? prec o
  | _ => true
  end.

Local Open Scope string_scope.
(** The text of the message after the location, for the macros with handler or exception and for assertions. *)
Definition expected (h : how) (r : op) (lhs rhs : list token) (s : string) (v1 v2 : Z) : list written :=
  [WStr s; WStr "\n"] ++
  (match h with
   | ByAssert => []
   | _ => [WStr "Expected "; WQuote lhs; WStr " "; WQuote [TOp (opposite r)]; WStr " "; WQuote rhs; WStr "\n"]
   end) ++
  [WStr "  "; WQuote lhs; WStr " = "; WNum v1; WStr "\n"; WStr "  "; WQuote rhs; WStr " = "; WNum v2; WStr "\n"; WStr "\n"].

(** The two macros whose definition names another relation. *)
Definition wrong (m : macro) : bool := match m with ERROR_IF_LE | THROW_IF_LE => true | _ => false end.
