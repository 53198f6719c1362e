(** Threads over a shared state. A thread is given by its local state; [step] is its next atomic step, a
    finished thread keeps everything as it is. A schedule is the list of the threads which make a step. *)
From Coq Require Import List Arith.
From Verif Require Import Base.
Import ListNotations.
Set Implicit Arguments.

Section Conc.
Variables (S T : Type).
Variable step : S -> T -> outcome (S * T).
Fixpoint exec (sched : list nat) (s : S) (ths : list T) : outcome (S * list T) :=
  match sched with
  | [] => Ok (s, ths)
  | t :: sched' =>
      match nth_error ths t with
      | None => exec sched' s ths
      | Some th => '(s', th') <- step s th ;; exec sched' s' (upd ths t th')
      end
  end.
End Conc.
