(** What a program over several objects means when every variable simply has a value of its own: the specification of
    copies, moves and destruction. *)
From Coq Require Import List Arith.
From Verif Require Import Base Values Indexing IndexingSpec Array ArraySpec SortedArray.
Import ListNotations.
Set Implicit Arguments.
Unset Strict Implicit.

Section Spec.
Variable F X : Type.
(** [fresh]: the value of a new object; [blank]: that of an object with null pointers, into which a copy constructor
    copies; [step]: a call (None: not permitted); [assign this source]: the value after a copy assignment, [self this]
    after one from itself; [left]: what is left of a value which has been moved; [leaks]: a move assignment forgets the
    elements of its target; [void]: values which need no storage. *)
Variable fresh blank : X.
Variable step : F -> X -> option X.
Variable assign : X -> X -> option X.
Variable self : X -> option X.
Variable left : X -> X.
Variable leaks : bool.
Variable void : X -> bool.

(** the variables (None: destroyed) and the forgotten values *)
Definition env : Type := (list (option X) * list X)%type.
Definition value (e : env) (x : nat) : option X := match nth_error (fst e) x with Some o => o | None => None end.
Definition update (e : env) (x : nat) (o : option X) : env := (upd (fst e) x o, snd e).
Definition plain (i : stmt F) (e : env) : option env :=
  match i with
  | New => Some (fst e ++ [Some fresh], snd e)
  | CopyNew y =>
      match value e y with
      | Some v => match assign blank v with Some v' => Some (fst e ++ [Some v'], snd e) | None => None end
      | None => None
      end
  | MoveNew y =>
      match value e y with
      | Some v => Some (upd (fst e) y (Some (left v)) ++ [Some v], snd e)
      | None => None
      end
  | Call x f =>
      match value e x with
      | Some v => match step f v with Some v' => Some (update e x (Some v')) | None => None end
      | None => None
      end
  | Copy x y =>
      match value e x, value e y with
      | Some v, Some w => match (if x =? y then self v else assign v w) with Some w' => Some (update e x (Some w')) | None => None end
      | _, _ => None
      end
  | Move x y =>
      match value e x, value e y with
      | Some v, Some w => if x =? y then None else
          Some (upd (upd (fst e) x (Some w)) y (Some (left w)), (if leaks then if void v then [] else [v] else []) ++ snd e)
      | _, _ => None
      end
  | Destroy x => match value e x with Some _ => Some (update e x None) | None => None end
  end.
Fixpoint plains (p : list (stmt F)) (e : env) : option env :=
  match p with
  | [] => Some e
  | i :: p' => match plain i e with Some e' => plains p' e' | None => None end
  end.
(** Every call of the program meets its precondition. *)
Variable allowed : F -> X -> Prop.
Definition fulfils (i : stmt F) (e : env) : Prop :=
  match i with Call x f => forall v, value e x = Some v -> allowed f v | _ => True end.
Fixpoint admitted (p : list (stmt F)) (e : env) : Prop :=
  match p with
  | [] => True
  | i :: p' => fulfils i e /\ match plain i e with Some e' => admitted p' e' | None => True end
  end.
End Spec.

(** For list valued variables: an assignment copies the list, a move leaves the empty list. *)
Definition void_list {A} (l : list A) : bool := match l with [] => true | _ => false end.

(** Shapes: (extents, index of the dimension changed by resize). A moved array has no extents. *)
Definition shape_step {V} (ndim : nat) (c : ncall V) (x : list nat * nat) : option (list nat * nat) :=
  if match c with NResizeDimension ps => forallb (fun p => fst p <? ndim) ps | _ => true end then extents c x else None.
Definition void_shape (x : list nat * nat) : bool := extent_product (fst x) =? 0.
Definition no_extents (x : list nat * nat) : list nat * nat := (map (fun _ => 0) (fst x), snd x).

(** Sets as increasing lists. *)
Section Sets.
Variable V : Type.
Variable lt eqb : V -> V -> bool.
Fixpoint ascending (l : list V) : bool :=
  match l with
  | x :: ((y :: _) as l') => (lt x y && ascending l')%bool
  | _ => true
  end.
Definition add (l : list V) (v : V) : list V := filter (fun x => lt x v) l ++ [v] ++ filter (fun x => lt v x) l.
Definition without (l vs : list V) : list V := filter (fun x => negb (existsb (eqb x) vs)) l.
Definition set_step (c : scall V) (l : list V) : option (list V) :=
  match c with
  | SInsert v => Some (add l v)
  | SInsertRange vs => if ascending vs then Some (fold_left add vs l) else None
  | SRemove v => Some (without l [v])
  | SRemoveRange vs => if ascending vs then Some (without l vs) else None
  | SClear => Some []
  | SReserve _ => Some l
  end.
End Sets.

Section Seen.
Variable M St F : Type.
Variable cl : class M St F.
(** The object of a variable: its members and its storage. *)
Definition content (st : state M St) (x : nat) : outcome (M * St) :=
  o <- var (vars st) x ;; s <- load cl (heap st) (o_handle o) ;; Ok (o_members o, s).
(** The blocks which have been allocated and not released, and those a variable points to. *)
Definition live (st : state M St) : list nat :=
  filter (fun k => match nth_error (heap st) k with Some (Some _) => true | _ => false end) (seq 0 (length (heap st))).
Definition owned (st : state M St) : list nat :=
  flat_map (fun o => match o with Some ob => match o_handle ob with Some k => [k] | None => [] end | None => [] end) (vars st).
End Seen.
