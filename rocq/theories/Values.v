(** Programs over several objects of one container class: construction, calls, copies, moves and destruction.

    Every container owns its buffers through pointers which are copied and reset together, so the model has one handle per
    object (null or a block of the heap), the block being the contents of all its buffers; a reallocation replaces the
    contents of the block. What makes copies deep or shallow is the handle. *)
From Coq Require Import List Arith Bool.
From Verif Require Import Base.
Import ListNotations.
Set Implicit Arguments.

(** The class: its plain members [M], its storage [St], its calls [F]. *)
Record class (M St F : Type) : Type := mkClass {
  nothing : St;                                              (* storage of null pointers *)
  is_null : St -> bool;
  members : M;                                               (* of a default constructed object *)
  initial : St;                                              (* and its storage *)
  call : F -> M * St -> outcome (M * St);
  assign_copy : M * St -> M * St -> outcome (M * St);         (* this, source *)
  assign_self : M * St -> outcome (M * St);                   (* copy assignment from itself *)
  moved : M -> M;                                            (* members of the source after a move *)
  frees : bool;                                              (* move assignment first frees this *)
  freed : M -> M;                                            (* members after that *)
  destructor : M * St -> outcome unit                        (* destroys the values and frees the buffers *)
}.

Inductive stmt (F : Type) : Type :=
| New                        (* a further variable, default constructed *)
| CopyNew (y : nat)          (* T x( y ) *)
| MoveNew (y : nat)          (* T x( std::move( y ) ) *)
| Call (x : nat) (f : F)
| Copy (x y : nat)           (* x = y *)
| Move (x y : nat)           (* x = std::move( y ) *)
| Destroy (x : nat).
Arguments New {F}. Arguments CopyNew {F}. Arguments MoveNew {F}. Arguments Copy {F}. Arguments Move {F}. Arguments Destroy {F}.

Section Heap.
Variable M St F : Type.
Variable cl : class M St F.

Record object : Type := mkObject { o_members : M; o_handle : option nat }.
(** The variables (None: destroyed) and the heap (None: released). *)
Record state : Type := mkState { vars : list (option object); heap : list (option St) }.

Definition load (h : list (option St)) (p : option nat) : outcome St :=
  match p with
  | None => Ok (nothing cl)
  | Some k => match nth_error h k with Some (Some s) => Ok s | _ => Fault FDangling end
  end.
(** Releasing a block (std::free; nothing for null). *)
Definition drop (h : list (option St)) (p : option nat) : outcome (list (option St)) :=
  match p with
  | None => Ok h
  | Some k => match nth_error h k with Some (Some _) => Ok (upd h k None) | _ => Fault FDangling end
  end.
(** Storage after a call: allocated, changed or released. *)
Definition save (h : list (option St)) (p : option nat) (s : St) : outcome (list (option St) * option nat) :=
  if is_null cl s then h' <- drop h p ;; Ok (h', None)
  else match p with
       | None => Ok (h ++ [Some s], Some (length h))
       | Some k => match nth_error h k with Some (Some _) => Ok (upd h k (Some s), p) | _ => Fault FDangling end
       end.
Definition var {X} (l : list (option X)) (x : nat) : outcome X :=
  match nth_error l x with Some (Some o) => Ok o | _ => Fault FDangling end.
Definition put (st : state) (x : nat) (m : M) (h : list (option St)) (p : option nat) : state :=
  mkState (upd (vars st) x (Some (mkObject m p))) h.

(** x = y *)
Definition copy_to (st : state) (x y : nat) : outcome state :=
  ox <- var (vars st) x ;; oy <- var (vars st) y ;;
  sx <- load (heap st) (o_handle ox) ;;
  '(m, s) <- (if x =? y then assign_self cl (o_members ox, sx)
              else sy <- load (heap st) (o_handle oy) ;; assign_copy cl (o_members ox, sx) (o_members oy, sy)) ;;
  '(h, p) <- save (heap st) (o_handle ox) s ;;
  Ok (put st x m h p).
(** The shallow move of y into x: the handle goes over, and y's is reset; what x had is not looked at. *)
Definition move_to (st : state) (x y : nat) : outcome state :=
  oy <- var (vars st) y ;;
  let st1 := put st x (o_members oy) (heap st) (o_handle oy) in
  Ok (put st1 y (moved cl (o_members oy)) (heap st1) None).
Definition free_object (st : state) (x : nat) : outcome (list (option St)) :=
  ox <- var (vars st) x ;;
  s <- load (heap st) (o_handle ox) ;;
  _ <- destructor cl (o_members ox, s) ;;
  drop (heap st) (o_handle ox).

(** A further variable: null pointers (from which the copy constructors start: Array.hpp:138, SortedArray.hpp:76,
    ArrayOfArrays.hpp:67), and after its default constructor. *)
Definition declare (st : state) : state := mkState (vars st ++ [Some (mkObject (members cl) None)]) (heap st).
Definition construct_new (st : state) : outcome state :=
  '(h, p) <- save (heap st) None (initial cl) ;;
  Ok (put (declare st) (length (vars st)) (members cl) h p).

Definition execute (i : stmt F) (st : state) : outcome state :=
  match i with
  | New => construct_new st
  | CopyNew y => copy_to (declare st) (length (vars st)) y
  | MoveNew y => move_to (declare st) (length (vars st)) y
  | Call x f =>
      ox <- var (vars st) x ;;
      s <- load (heap st) (o_handle ox) ;;
      '(m, s') <- call cl f (o_members ox, s) ;;
      '(h, p) <- save (heap st) (o_handle ox) s' ;;
      Ok (put st x m h p)
  | Copy x y => copy_to st x y
  | Move x y =>
      ox <- var (vars st) x ;;
      st1 <- (if frees cl then h <- free_object st x ;; Ok (put st x (freed cl (o_members ox)) h None) else Ok st) ;;
      move_to st1 x y
  | Destroy x =>
      h <- free_object st x ;;
      Ok (mkState (upd (vars st) x None) h)
  end.
Fixpoint executes (l : list (stmt F)) (st : state) : outcome state :=
  match l with
  | [] => Ok st
  | i :: l' => st' <- execute i st ;; executes l' st'
  end.
End Heap.

(** ** What the programs should do: every variable has its own value; a move assignment into an object which owned
    storage and does not free it adds that storage to the lost ones. *)
Section Values.
Variable M St F : Type.
Variable cl : class M St F.
Definition values : Type := (list (option (M * St)) * list St)%type.
Definition set (vs : values) (x : nat) (v : M * St) : values := (upd (fst vs) x (Some v), snd vs).
Definition v_copy (vs : values) (x y : nat) : outcome values :=
  vx <- var (fst vs) x ;; vy <- var (fst vs) y ;;
  v <- (if x =? y then assign_self cl vx else assign_copy cl vx vy) ;;
  Ok (set vs x v).
Definition lose (s : St) : list St := if is_null cl s then [] else [s].
Definition v_execute (i : stmt F) (vs : values) : outcome values :=
  match i with
  | New => Ok (fst vs ++ [Some (members cl, initial cl)], snd vs)
  | CopyNew y => v_copy (fst vs ++ [Some (members cl, nothing cl)], snd vs) (length (fst vs)) y
  | MoveNew y =>
      vy <- var (fst vs ++ [Some (members cl, nothing cl)]) y ;;
      Ok (upd (fst vs ++ [Some vy]) y (Some (moved cl (fst vy), nothing cl)), snd vs)
  | Call x f => vx <- var (fst vs) x ;; v <- call cl f vx ;; Ok (set vs x v)
  | Copy x y => v_copy vs x y
  | Move x y =>
      vx <- var (fst vs) x ;;
      _ <- (if frees cl then destructor cl vx else Ok tt) ;;
      let vs1 := if frees cl then set vs x (freed cl (fst vx), nothing cl) else (fst vs, lose (snd vx) ++ snd vs) in
      vy <- var (fst vs1) y ;;
      Ok (set (set vs1 x vy) y (moved cl (fst vy), nothing cl))
  | Destroy x => vx <- var (fst vs) x ;; _ <- destructor cl vx ;; Ok (upd (fst vs) x None, snd vs)
  end.
Fixpoint v_executes (l : list (stmt F)) (vs : values) : outcome values :=
  match l with
  | [] => Ok vs
  | i :: l' => vs' <- v_execute i vs ;; v_executes l' vs'
  end.
End Values.
