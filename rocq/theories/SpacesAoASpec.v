(** Programs on an ArrayOfArrays in two memory spaces: what they mean without any spaces, and the protocol for users. *)
From Coq Require Import List Arith Bool.
From Verif Require Import Base AoA AoASpec SpacesAoA.
Import ListNotations.
Set Implicit Arguments.

Section Spec.
Variable V : Type.
Variable dflt : V.

(** ** The protocol. What the user knows about the container. *)
Inductive known : Type :=
| Owned       (* on the host, everything marked as modified there: new, or after move( host, true ) *)
| Written     (* on the host after a host kernel with toView(): m_offsets may not be marked *)
| Readable    (* on the host, perhaps nothing marked *)
| Away        (* perhaps on the device, but the pointers of the container are host pointers *)
| Device      (* the pointers of the container are device pointers; after move( device, true ) *)
| DeviceRead  (* the same after move( device, false ) *)
| Lent.       (* the pointers of the container are device pointers, the data perhaps not there *)
(** Methods which are safe in the state [Written]: none of those which change m_offsets in place without a touch. *)
Definition careful (c : acall V) (K : list nat) : bool :=
  match c with
  | ACompress | AResizeFromCapacities _ => false
  | AAppend n => 0 <? n
  | AAppendFrom vs | AInsertArray _ vs => 0 <? length vs
  | AEraseArray i => 0 <? nth i K 0
  | _ => true
  end.
Definition next (u : uop V) (h : known) (K : list nat) : option known :=
  match u, h with
  | UCall c, Owned => Some Owned
  | UCall c, Written => if careful c K then Some Written else None
  | URead, (Owned | Written | Readable) => Some h
  | UKernel 0 _ _, Owned => Some Owned
  | UKernel 0 _ _, Written => Some Written
  | UKernel 0 ToView _, (Readable | Away) => Some Written
  | UKernel 0 _ _, (Readable | Away) => Some Readable
  | UKernel 0 _ _, (Device | DeviceRead | Lent) => Some Lent
  | UKernel 1 _ _, (Device | DeviceRead | Lent) => Some h
  | UKernel 1 _ _, _ => Some Away
  | UMove 0 true, _ => Some Owned
  | UMove 0 false, (Owned | Written) => Some h
  | UMove 0 false, _ => Some Readable
  | UMove 1 true, _ => Some Device
  | UMove 1 false, Device => Some Device
  | UMove 1 false, _ => Some DeviceRead
  | UDirect 0 _ _, (Owned | Written) => Some h
  | UDirect 0 ToViewConst _, Readable => Some h
  | UDirect 1 _ _, Device => Some h
  | UDirect 1 ToViewConst _, DeviceRead => Some h
  | _, _ => None
  end.

(** ** The meaning: a vector of vectors with capacities. *)
(** A call through a view finds enough capacity. *)
Definition fits (c : acall V) (M : list (list V)) (K : list nat) : bool :=
  match c with
  | AEmplaceBack i _ | AEmplace i _ _ => length (nth i M []) + 1 <=? nth i K 0
  | AAppendTo i vs | AInsertInto i _ vs => length (nth i M []) + length vs <=? nth i K 0
  | _ => true
  end.
Fixpoint view_calls (k : vkind) (cs : list (acall V)) (M : list (list V)) (K : list nat) : option (list (list V)) :=
  match cs with
  | [] => Some M
  | c :: cs' =>
      if (vcompiles k c && fits c M K)%bool
      then match vec_step dflt c M with Some M' => view_calls k cs' M' K | None => None end else None
  end.
(** Contents and capacities after an operation, [None] if an index is out of range, and what it reports. *)
Definition after (u : uop V) (M : list (list V)) (K : list nat) : option (list (list V) * list nat) :=
  match u with
  | UCall c => match vec_step dflt c M with Some M' => Some (M', cap_step c M K) | None => None end
  | UKernel _ k cs | UDirect _ k cs => match view_calls k cs M K with Some M' => Some (M', K) | None => None end
  | URead | UMove _ _ | UTouch _ => Some (M, K)
  end.
Definition reports (u : uop V) (M : list (list V)) : list (option (list (list V))) :=
  match u with UCall _ => [None] | URead | UKernel _ _ _ | UDirect _ _ _ => [Some M] | UMove _ _ | UTouch _ => [] end.
Fixpoint meaning (us : list (uop V)) (M : list (list V)) (K : list nat) : option (list (option (list (list V)))) :=
  match us with
  | [] => Some []
  | u :: us' =>
      match after u M K with
      | Some (M', K') => option_map (app (reports u M')) (meaning us' M' K')
      | None => None
      end
  end.
(** The program follows the protocol. *)
Fixpoint obeys (us : list (uop V)) (h : known) (M : list (list V)) (K : list nat) : bool :=
  match us with
  | [] => true
  | u :: us' =>
      match next u h K with
      | Some h' => match after u M K with Some (M', K') => obeys us' h' M' K' | None => true end
      | None => false
      end
  end.
End Spec.
