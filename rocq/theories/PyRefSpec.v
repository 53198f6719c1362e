(** Who owns references to Python objects. Nothing here mentions counts. *)
From Coq Require Import List Arith.
From Verif Require Import Base PyRef.
Import ListNotations.
Set Implicit Arguments.
Unset Strict Implicit.

Definition occ (l : list nat) (o : nat) : nat := count_occ Nat.eq_dec l o.
(** One occurrence of [o] less; [None] without one. *)
Fixpoint take_one (o : nat) (l : list nat) : option (list nat) :=
  match l with
  | [] => None
  | x :: l' => if x =? o then Some l' else match take_one o l' with Some r => Some (x :: r) | None => None end
  end.
Fixpoint take_list (os l : list nat) : option (list nat) :=
  match os with [] => Some l | o :: os' => match take_one o l with Some l' => take_list os' l' | None => None end end.

(** The PyObjectRefs of a program, the references it owns through plain pointers, the references nobody can
    give up any more, and the number of objects made so far. *)
Record owners : Type := mkW { w_vars : list (option ptr); w_raw : list nat; w_lost : list nat; w_made : nat }.
Definition of_ptr (p : ptr) : list nat := match p with Some o => [o] | None => [] end.
Definition held (vars : list (option ptr)) : list nat := flat_map (fun x => match x with Some p => of_ptr p | None => [] end) vars.
Definition all_owners (w : owners) : list nat := held (w_vars w) ++ w_raw w ++ w_lost w.
Definition var_of (w : owners) (v : nat) : option ptr := match nth_error (w_vars w) v with Some (Some p) => Some p | _ => None end.
Definition with_var (w : owners) (v : nat) (p : ptr) : owners := mkW (upd (w_vars w) v (Some p)) (w_raw w) (w_lost w) (w_made w).
Definition add_var (w : owners) (p : ptr) : owners := mkW (w_vars w ++ [Some p]) (w_raw w) (w_lost w) (w_made w).
Definition with_raw (w : owners) (raw : list nat) : owners := mkW (w_vars w) raw (w_lost w) (w_made w).
Definition lose (w : owners) (p : ptr) : owners := mkW (w_vars w) (w_raw w) (of_ptr p ++ w_lost w) (w_made w).
(** The pointer [p] is given away: the program must own a reference through it. *)
Definition give (w : owners) (p : ptr) : option owners :=
  match p with
  | None => Some w
  | Some o => match take_one o (w_raw w) with Some raw => Some (with_raw w raw) | None => None end
  end.

(** [None]: the program uses a destroyed variable, gives away a reference it does not own, or increments the
    count of an object it has no reference to. *)
Definition wstep (c : rcmd) (w : owners) : option owners :=
  match c with
  | RDefault => Some (add_var w None)
  | RFrom p => match give w p with Some w' => Some (add_var w' p) | None => None end
  | RCopy x => match var_of w x with Some p => Some (add_var w p) | None => None end
  | RMove x => match var_of w x with Some p => Some (add_var (with_var w x None) p) | None => None end
  | RCopyAssign v x => match var_of w v, var_of w x with Some old, Some p => Some (with_var (lose w old) v p) | _, _ => None end
  | RMoveAssign v x =>
      match var_of w v, var_of w x with Some old, Some p => Some (with_var (with_var (lose w old) v p) x None) | _, _ => None end
  | RPtrAssign v p =>
      match var_of w v, give w p with Some _, Some w' => Some (with_var w' v p) | _, _ => None end
  | RRelease v => match var_of w v with Some p => Some (with_var (with_raw w (of_ptr p ++ w_raw w)) v None) | None => None end
  | RDestroy v => match var_of w v with Some _ => Some (mkW (upd (w_vars w) v None) (w_raw w) (w_lost w) (w_made w)) | None => None end
  | RIncref None => Some w
  | RIncref (Some o) => if existsb (Nat.eqb o) (all_owners w) then Some (with_raw w (o :: w_raw w)) else None
  | RDecref p => give w p
  | RCreate l => match take_list l (w_raw w) with Some raw => Some (mkW (w_vars w) (w_made w :: raw) (w_lost w) (w_made w + 1)) | None => None end
  end.
Fixpoint wrun (prog : list rcmd) (w : owners) : option owners :=
  match prog with [] => Some w | c :: prog' => match wstep c w with Some w' => wrun prog' w' | None => None end end.

(** The count of an object, the references owned by objects, and the books: every count is the number of
    references. *)
Definition count (h : heap) (o : nat) : nat := match nth_error h o with Some x => cnt x | None => 0 end.
Definition inner (h : heap) : list nat := flat_map items h.
Definition books (h : heap) (l : list nat) : Prop := forall o, count h o = occ l o + occ (inner h) o.
