(** What an exception may leave of an Array: specification on plain lists and extents. *)
From Coq Require Import List Arith ZArith Lia Bool.
From Verif Require Import Base Mem BufferManip IndexingSpec Array ArraySpec Throw.
Import ListNotations.
Set Implicit Arguments.
Unset Strict Implicit.

(** The state left behind: the array as before the call; its destructor forgets objects; its destructor
    destroys a slot that holds none. *)
Inductive damage : Type := Intact | Leaks | Broken.

Section Spec.
Variable V : Type.
Variable dflt : V.

(** Element operations that may throw: the new elements built and the elements assigned. *)
Definition cost (c : vcall V) (l : list V) : nat :=
  match c with
  | VEmplaceBack _ | VEmplace _ _ | VSet _ _ => 1
  | VInsert _ vs => length vs
  | VResize m | VResizeDefault m _ => Z.to_nat m - length l
  | VPopBack | VErase _ | VReserve _ | VClear => 0
  end.

(** The damage when n of these succeed and the next one throws. *)
Definition damage_of (c : vcall V) (l : list V) (n : nat) : damage :=
  match c with
  | VEmplaceBack _ | VSet _ _ => Intact
  | VEmplace pos _ => if (pos =? Z.of_nat (length l))%Z then Intact else Broken
  | VInsert pos _ =>
      if (pos + Z.of_nat n <? Z.of_nat (length l))%Z then Broken
      else if ((pos =? Z.of_nat (length l))%Z && (n =? 0))%bool then Intact
      else Leaks
  | _ => Broken
  end.

(** The same count for the N dimensional interface, from the extents before and after. *)
Definition ncost (c : ncall V) (old new : list nat) : nat :=
  match c with NSet _ _ => 1 | _ => extent_product new - extent_product old end.

(** What that means for the array left behind, which showed the elements l before the call. *)
Definition after (chk : bool) (d : damage) (t : tarray V) (l : list V) : Prop :=
  match d with
  | Intact => t_dtor chk false BMalloc t = Ok tt /\
              exists a, t = as_left a /\ shows chk [0] a l /\ storage false a l
  | Leaks => t_dtor chk false BMalloc t = Fault FLeak
  | Broken => t_dtor chk false BMalloc t = Fault FDestroy
  end.

(** A program that catches: the calls with the budget of each. It goes on as long as the array is intact;
    the result is the contents, and what has become of the array. *)
Fixpoint fate (h : list (nat * vcall V)) (l : list V) : option (list V * damage) :=
  match h with
  | [] => Some (l, Intact)
  | (n, c) :: h' =>
      match vector dflt c l with
      | None => None
      | Some l' =>
          if cost c l <=? n then fate h' l'
          else match damage_of c l n with Intact => fate h' l | d => Some (l, d) end
      end
  end.
End Spec.

Section Run.
Variable V : Type.
Variable chk : bool.
Variable dflt : V.

(** The same program on the model: it stops at the first array whose destructor would not work. *)
Definition resume (t : tarray V) : array V :=
  mkArray (map Z.to_nat (t_dims t)) (t_strides t) (t_rix t) (t_buf t).
Fixpoint x_run (h : list (nat * vcall V)) (a : array V) : outcome (tarray V) :=
  match h with
  | [] => Ok (as_left a)
  | (n, c) :: h' =>
      match x_vstep chk false BMalloc [0] dflt n c a with
      | XOk _ a' => x_run h' a'
      | XThrow _ t =>
          match t_dtor chk false BMalloc t with Ok _ => x_run h' (resume t) | _ => Ok t end
      | XFault f => Fault f
      end
  end.
End Run.
