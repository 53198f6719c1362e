(** Programs over several arrays of arrays (or of sets, or sparsity patterns, or matrices) as programs on plain values. *)
From Coq Require Import List Arith Bool.
From Verif Require Import Base Values ValuesSpec AoA AoASpec AoS AoSSpec Sparsity SparsitySpec CRS CRSSpec.
Import ListNotations.
Set Implicit Arguments.
Unset Strict Implicit.

Section Nullable.
Variable F C : Type.
(** The value [None]: the object has been moved from, or its copy constructor has not copied yet. Such objects can be moved,
    destroyed and assigned to; of the calls only those which [revive] knows are possible. It cannot be copied.
    [room this source]: the copy assignment is known to be harmless; [intact]: so is the one from itself. *)
Variable fresh : C.
Variable step : F -> C -> option C.
Variable revive : F -> option C.
Variable room : C -> C -> bool.
Variable intact : C -> bool.
Definition call_on (f : F) (x : option C) : option (option C) :=
  match match x with Some c => step f c | None => revive f end with Some c => Some (Some c) | None => None end.
Definition assign_on (x y : option C) : option (option C) :=
  match x, y with
  | _, None => None
  | None, Some c => Some (Some c)
  | Some c0, Some c => if room c0 c then Some (Some c) else None
  end.
Definition self_on (x : option C) : option (option C) :=
  match x with Some c => if intact c then Some (Some c) else None | None => None end.
Definition null_value (x : option C) : bool := match x with None => true | Some _ => false end.
Definition nullable_program (p : list (stmt F)) : option (env (option C)) :=
  plains (Some fresh) None call_on assign_on self_on (fun _ => None) false null_value p ([], []).
Definition nullable_admitted (allowed : F -> option C -> Prop) (p : list (stmt F)) : Prop :=
  admitted (Some fresh) None call_on assign_on self_on (fun _ => None) false null_value allowed p ([], []).
End Nullable.

(** ** ArrayOfArrays: contents and capacities *)
Section AoA.
Variable V : Type.
Variable tv : bool.
Variable dflt : V.
Notation value := (list (list V) * list nat)%type.
(** Only trivially copyable values can be moved over gaps (C24). *)
Definition rows_step (c : acall V) (x : value) : option value :=
  if (tv || full (fst x) (snd x))%bool then
    match vec_step dflt c (fst x) with Some M => Some (M, cap_step c (fst x) (snd x)) | None => None end
  else None.
Definition rows_revive (c : acall V) : option value :=
  match c with
  | AResize n cap => Some (repeat [] n, repeat cap n)
  | AResizeFromCapacities caps => Some (map (fun _ => []) caps, caps)
  | _ => None
  end.
(** The sum of those capacities of the source which stand where the target has arrays; if it has more arrays than the source,
    the sum of its own. *)
Definition believed (K0 K : list nat) : nat :=
  if length K0 <=? length K then list_sum (firstn (length K0) K) else list_sum K0.
Definition enough (t : bool) (capacity : nat) (K0 K : list nat) : bool :=
  (list_sum K <=? capacity) || (believed K0 K =? 0) || (t && (believed K0 K <=? capacity)).
(** The capacity of the value buffer is at least the sum of the capacities. *)
Definition rows_room (x0 x : value) : bool := enough tv (list_sum (snd x0)) (snd x0) (snd x).
Definition rows_intact (x : value) : bool := (tv || forallb (fun r => length r =? 0) (fst x))%bool.
End AoA.

(** ** The others: into an empty target *)
Definition sets_revive {V} (c : tcall V) : option (list (V -> Prop)) :=
  match c with
  | TResize n _ => Some (repeat none n)
  | TResizeFromCapacities caps => Some (map (fun _ => none) caps)
  | _ => None
  end.
Definition no_rows {A} (l _ : list A) : bool := match l with [] => true | _ => false end.
Definition pat_revive (cmax : BinNums.Z) (c : pcall) : option pat_state :=
  match c with PResize _ _ _ | PResizeFromRowCapacities _ _ => pat_step cmax c ([], 0) | _ => None end.
Definition mat_revive {W} (m : ccall W -> mat_state W -> option (mat_state W)) (c : ccall W) : option (mat_state W) :=
  match c with CResize _ _ _ | CResizeFromRowCapacities _ _ => m c ([], 0) | _ => None end.
