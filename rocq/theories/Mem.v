(** Object lifetimes in a buffer.

    A buffer (MallocBuffer, ChaiBuffer, StackBuffer) is the list of its slots; its length is the
    capacity. [Raw]: allocated memory without an object. [Obj v]: a live object. [Hollow]: an object
    that has been moved from but not yet destroyed or overwritten.

    [triv] models std::is_trivially_copyable/destructible< T >: for such T moving is copying bytes,
    destroying is a no-op and storing into any slot is allowed. Simplification: the individual type
    traits (trivially destructible, trivially copyable, trivially default constructible) are
    identified. *)
From Coq Require Import List Arith ZArith Lia Bool.
From Verif Require Import Base.
Import ListNotations.
Set Implicit Arguments.

Inductive cell (V : Type) : Type := Raw | Obj (v : V) | Hollow.
Arguments Raw {V}. Arguments Obj {V} v. Arguments Hollow {V}.

Definition buf (V : Type) := list (cell V).

Section Prim.
Variable V : Type.
Variable triv : bool.

(** Reading an element: [ptr[ i ]] used as a value. *)
Definition rd (b : buf V) (i : nat) : outcome V :=
  c <- aget b i ;; match c with Obj v => Ok v | _ => Fault FRead end.

(** [new ( ptr + i ) T( ... )], the new object being described by [c]. *)
Definition place (b : buf V) (i : nat) (c : cell V) : outcome (buf V) :=
  old <- aget b i ;;
  match old with
  | Obj _ => if triv then aset b i c else Fault FOver
  | _ => aset b i c
  end.

(** [new ( ptr + i ) T( v )] *)
Definition construct (b : buf V) (i : nat) (v : V) : outcome (buf V) := place b i (Obj v).

(** [std::move( ptr[ i ] )] consumed by a constructor or an assignment: what is transferred and
    what is left behind. *)
Definition take (b : buf V) (i : nat) : outcome (cell V * buf V) :=
  c <- aget b i ;;
  if triv then Ok (c, b)
  else match c with
       | Raw => Fault FMove
       | Obj v => b' <- aset b i Hollow ;; Ok (Obj v, b')
       | Hollow => Ok (Hollow, b)
       end.

(** [new ( ptr + dst ) T( std::move( ptr[ src ] ) )] *)
Definition mconstruct (b : buf V) (dst src : nat) : outcome (buf V) :=
  '(c, b1) <- take b src ;; place b1 dst c.

(** Storing by assignment: the target must hold an object. *)
Definition store (b : buf V) (i : nat) (c : cell V) : outcome (buf V) :=
  old <- aget b i ;;
  match old with
  | Raw => if triv then aset b i c else Fault FAssign
  | _ => aset b i c
  end.

(** [ptr[ i ] = v] *)
Definition assign (b : buf V) (i : nat) (v : V) : outcome (buf V) := store b i (Obj v).

(** [ptr[ dst ] = std::move( ptr[ src ] )] *)
Definition massign (b : buf V) (dst src : nat) : outcome (buf V) :=
  '(c, b1) <- take b src ;; store b1 dst c.

(** [ptr[ i ].~T()] *)
Definition destroy1 (b : buf V) (i : nat) : outcome (buf V) :=
  c <- aget b i ;;
  if triv then Ok b
  else match c with
       | Raw => Fault FDestroy
       | _ => aset b i Raw
       end.

End Prim.
