(** Threads which access the buffers of one view (ArrayOfArraysView and its subclasses) slot by slot.

    The state is that of AoA.v seen as memory: four buffers of cells. A program is a sequence of accesses to single
    cells, each of which is one atomic step of the thread; everything between two accesses is local to the thread. The
    members of the view itself (number of arrays, the pointers) are captured by value, so they are constants of a
    program. Two threads accessing the same cell is therefore allowed by this model: which value is seen is decided by
    the schedule, see Conc.v. *)
From Coq Require Import List Arith Lia Bool.
From Verif Require Import Base Mem AoA Conc.
Import ListNotations.
Set Implicit Arguments.

(** m_offsets, m_sizes, m_values (ArrayOfArraysView.hpp:953-968) and m_entries (CRSMatrixView.hpp:716) *)
Inductive bid : Type := BOffs | BSizes | BVals | BEnts.

Section Prog.
Variables V W : Type.
Definition ty (b : bid) : Type := match b with BOffs => nat | BSizes => nat | BVals => V | BEnts => W end.

(** The memory: [None] is outside the allocation. *)
Definition heap : Type := forall b : bid, nat -> option (cell (ty b)).
Definition heap_of (a : aoa V W) : heap := fun b =>
  match b return nat -> option (cell (ty b)) with
  | BOffs => nth_error (offs a)
  | BSizes => nth_error (szs a)
  | BVals => nth_error (vals a)
  | BEnts => nth_error (ents a)
  end.
Definition put_fn {A} (f : nat -> A) (i : nat) (x : A) : nat -> A := fun j => if j =? i then x else f j.
Definition hset (h : heap) (b : bid) (i : nat) (c : cell (ty b)) : heap :=
  match b return cell (ty b) -> heap with
  | BOffs => fun c b' => match b' return nat -> option (cell (ty b')) with BOffs => put_fn (h BOffs) i (Some c) | BSizes => h BSizes | BVals => h BVals | BEnts => h BEnts end
  | BSizes => fun c b' => match b' return nat -> option (cell (ty b')) with BSizes => put_fn (h BSizes) i (Some c) | BOffs => h BOffs | BVals => h BVals | BEnts => h BEnts end
  | BVals => fun c b' => match b' return nat -> option (cell (ty b')) with BVals => put_fn (h BVals) i (Some c) | BOffs => h BOffs | BSizes => h BSizes | BEnts => h BEnts end
  | BEnts => fun c b' => match b' return nat -> option (cell (ty b')) with BEnts => put_fn (h BEnts) i (Some c) | BOffs => h BOffs | BSizes => h BSizes | BVals => h BVals end
  end c.

(** [Stop None]: std::abort; [Stop ( Some f )]: undefined behaviour. *)
Inductive prog (A : Type) : Type :=
| Ret (a : A)
| Stop (f : option fault)
| Get (b : bid) (i : nat) (k : cell (ty b) -> prog A)
| Put (b : bid) (i : nat) (c : cell (ty b)) (k : prog A).

Fixpoint pbind {A B} (m : prog A) (f : A -> prog B) : prog B :=
  match m with
  | Ret a => f a
  | Stop _ e => Stop _ e
  | Get b i k => Get b i (fun c => pbind (k c) f)
  | Put b i c k => Put b i c (pbind k f)
  end.
Definition lift {A} (m : outcome A) : prog A :=
  match m with Ok a => Ret a | Abort => Stop _ None | Fault f => Stop _ (Some f) end.
Definition stopped {A} (f : option fault) : outcome A := match f with None => Abort | Some f => Fault f end.

(** One step of a thread (see Conc.exec); a finished thread does nothing. *)
Definition access {A} (h : heap) (p : prog A) : outcome (heap * prog A) :=
  match p with
  | Ret a => Ok (h, Ret a)
  | Stop _ f => stopped f
  | Get b i k => match h b i with Some c => Ok (h, k c) | None => Fault FOob end
  | Put b i c k => match h b i with Some _ => Ok (hset h b i c, k) | None => Fault FOob end
  end.
(** The program run alone. *)
Fixpoint run {A} (p : prog A) (h : heap) : outcome (A * heap) :=
  match p with
  | Ret a => Ok (a, h)
  | Stop _ f => stopped f
  | Get b i k => match h b i with Some c => run (k c) h | None => Fault FOob end
  | Put b i c k => match h b i with Some _ => run k (hset h b i c) | None => Fault FOob end
  end.
(** The next access of a thread: the cell and whether it is written. *)
Definition next_access {A} (p : prog A) : option (bid * nat * bool) :=
  match p with Get b i _ => Some (b, i, false) | Put b i _ _ => Some (b, i, true) | _ => None end.
(** No two threads are about to access the same cell, one of them writing it. *)
Definition no_race {A} (ths : list (prog A)) : Prop :=
  forall t u p q b i w, t <> u -> nth_error ths t = Some p -> nth_error ths u = Some q ->
    next_access p = Some (b, i, true) -> next_access q <> Some (b, i, w).
End Prog.
Arguments Ret {V W A} a. Arguments Stop {V W A} f. Arguments Get {V W A} b i k. Arguments Put {V W A} b i c k.
Notation "x <~ m ;; k" := (pbind m (fun x => k)) (at level 61, m at next level, right associativity).
Notation "' p <~ m ;; k" := (pbind m (fun x => match x with p => k end)) (at level 61, p pattern, m at next level, right associativity).
