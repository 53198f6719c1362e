(** Model of the process wide handlers of src/system.cpp: signals, floating point exceptions, the error handler. *)
From Coq Require Import List Arith NArith Bool.
From Verif Require Import Base.
Import ListNotations.
Set Implicit Arguments.

(** What signal() takes and returns. A null pointer is SIG_DFL. *)
Inductive handler : Type := SigDfl | SigIgn | SigErr | User (f : nat).
(** The operating system's table of handlers by signal number. *)
Definition os := nat -> handler.
Definition upd_fun {A} (f : nat -> A) (k : nat) (v : A) : nat -> A := fun j => if j =? k then v else f j.

Section Signals.
(** [catchable s]: the operating system lets the process install handlers for [s] (not so SIGKILL). *)
Variable catchable : nat -> bool.
(** signal() of the C library: returns the previous handler, or SIG_ERR without effect. *)
Definition signal (s : nat) (h : handler) (o : os) : os * handler :=
  if catchable s then match h with SigErr => (o, SigErr) | _ => (upd_fun o s h, o s) end else (o, SigErr).

(** std::map< int, handler > initialHandler (system.cpp:358): find, and insertion or overwriting by operator[]. *)
Definition table := list (nat * handler).
Fixpoint put (s : nat) (h : handler) (t : table) : table :=
  match t with
  | [] => [(s, h)]
  | (s', h') :: t' => if s =? s' then (s, h) :: t' else (s', h') :: put s h t'
  end.

(** system.cpp:491-514 setSignalHandling: one statement initialHandler[ s ] = signal( s, handler ) for each of the
    listed signals; which these are depends on the platform. *)
Fixpoint setSignalHandling (sigs : list nat) (h : handler) (st : os * table) : os * table :=
  match sigs with
  | [] => st
  | s :: sigs' =>
      let '(o, old) := signal s h (fst st) in
      setSignalHandling sigs' h (o, put s old (snd st))
  end.
(** system.cpp:517-523 resetSignalHandling; the order of the map does not matter (its keys are distinct). *)
Definition resetSignalHandling (st : os * table) : os * table :=
  (fold_left (fun o a => fst (signal (fst a) (snd a) o)) (snd st) (fst st), snd st).
End Signals.

(** Floating point exceptions as a set of bits. feenableexcept and fedisableexcept (glibc) return the set that was enabled. *)
Definition feenableexcept (e m : N) : N * N := (N.lor m e, m).
Definition fedisableexcept (e m : N) : N * N := (N.ldiff m e, m).
(** system.cpp:532-557 enableFloatingPointExceptions and 560-585 disableFloatingPointExceptions outside of OSX; -1 is never returned. *)
Definition enableFloatingPointExceptions (e m : N) : N * N := feenableexcept e m.
Definition disableFloatingPointExceptions (e m : N) : N * N := fedisableexcept e m.
(** A piece of code, as far as it changes the exceptions; [Guarded] is a block with a FloatingPointExceptionGuard
    (system.hpp:120-144: the constructor disables and remembers, the destructor enables what is remembered). *)
Inductive code : Type :=
| Other | Enable (e : N) | Disable (e : N) | Seq (c d : code) | Guarded (e : N) (body : code).
Fixpoint exec (c : code) (m : N) : N :=
  match c with
  | Other => m
  | Enable e => fst (enableFloatingPointExceptions e m)
  | Disable e => fst (disableFloatingPointExceptions e m)
  | Seq c d => exec d (exec c m)
  | Guarded e body =>
      let '(m1, previous) := disableFloatingPointExceptions e m in
      fst (enableFloatingPointExceptions previous (exec body m1))
  end.

(** system.cpp:437-460: s_errorHandler is null or a pointer to a std::function, which may itself be null. The result of
    calling: the handler which runs, or std::abort. [returns f]: the handler [f] returns to the caller. *)
Inductive ran : Type := StdAbort | Ran (f : nat).
Definition callErrorHandler (s : option (option nat)) : ran :=
  match s with None | Some None => StdAbort | Some (Some f) => Ran f end.
Definition setErrorHandler (returns : nat -> bool) (h : option nat) (s : option (option nat)) : outcome (option (option nat)) :=
  _ <- (match h with
        | None => match callErrorHandler s with StdAbort => Abort | Ran f => if returns f then Ok tt else Abort end
        | Some _ => Ok tt
        end) ;;
  Ok (Some h).
