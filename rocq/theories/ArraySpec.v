(** What a vector does: the specification of the one dimensional Array, on plain lists. *)
From Coq Require Import List Arith ZArith.
From Verif Require Import Array.
Import ListNotations.

Set Implicit Arguments.
Unset Strict Implicit.
Section Spec.
Variable V : Type.
Variable dflt : V.

(** l with its length changed to n, new places holding v *)
Definition with_length (l : list V) (n : nat) (v : V) : list V := firstn n l ++ repeat v (n - length l).

(** The list after the call, or None when the documented precondition fails. *)
Definition vector (c : vcall V) (l : list V) : option (list V) :=
  match c with
  | VEmplaceBack v => Some (l ++ [v])
  | VEmplace pos v =>
      if ((0 <=? pos)%Z && (pos <=? Z.of_nat (length l))%Z)%bool
      then Some (firstn (Z.to_nat pos) l ++ [v] ++ skipn (Z.to_nat pos) l) else None
  | VInsert pos vs =>
      if ((0 <=? pos)%Z && (pos <=? Z.of_nat (length l))%Z)%bool
      then Some (firstn (Z.to_nat pos) l ++ vs ++ skipn (Z.to_nat pos) l) else None
  | VPopBack => match l with [] => None | _ => Some (removelast l) end
  | VErase pos =>
      if ((0 <=? pos)%Z && (pos <? Z.of_nat (length l))%Z)%bool
      then Some (firstn (Z.to_nat pos) l ++ skipn (S (Z.to_nat pos)) l) else None
  | VResize n => if (0 <=? n)%Z then Some (with_length l (Z.to_nat n) dflt) else None
  | VResizeDefault n v => if (0 <=? n)%Z then Some (with_length l (Z.to_nat n) v) else None
  | VReserve n => Some l
  | VClear => Some []
  | VSet i v =>
      if ((0 <=? i)%Z && (i <? Z.of_nat (length l))%Z)%bool
      then Some (firstn (Z.to_nat i) l ++ [v] ++ skipn (S (Z.to_nat i)) l) else None
  end.

Fixpoint vectors (h : list (vcall V)) (l : list V) : option (list V) :=
  match h with
  | [] => Some l
  | c :: h' => match vector c l with Some l' => vectors h' l' | None => None end
  end.

(** The number of elements a call needs room for. *)
Definition need (c : vcall V) (l : list V) : nat :=
  match c with
  | VEmplaceBack _ | VEmplace _ _ => length l + 1
  | VInsert _ vs => length l + length vs
  | VResize n | VResizeDefault n _ | VReserve n => Z.to_nat n
  | _ => 0
  end.

(** No call of the history needs room for more than L elements. *)
Fixpoint fits (L : nat) (h : list (vcall V)) (l : list V) : Prop :=
  match h with
  | [] => True
  | c :: h' => need c l <= L /\
      match vector c l with Some l' => fits L h' l' | None => True end
  end.

(** a has exactly the elements l, seen through size() and operator[]. *)
Definition shows (chk : bool) (perm : list nat) (a : array V) (l : list V) : Prop :=
  size a = length l /\
  forall i v, nth_error l i = Some v -> at_ chk perm a [Z.of_nat i] = Base.Ok v.

(** Extents after a call of the N-dimensional interface: (extents, single-parameter resize index);
    None when the call must abort (negative extent, bad index). *)
Definition set_ext (dims : list nat) (p : nat * Z) : list nat :=
  firstn (fst p) dims ++ [Z.to_nat (snd p)] ++ skipn (S (fst p)) dims.
(** the index tuple lies within the extents *)
Fixpoint inside (dims : list nat) (idx : list Z) : bool :=
  match dims, idx with
  | [], [] => true
  | d :: dims', i :: idx' => ((0 <=? i)%Z && (i <? Z.of_nat d)%Z && inside dims' idx')%bool
  | _, _ => false
  end.
Definition extents (c : ncall V) (s : list nat * nat) : option (list nat * nat) :=
  let '(dims, r) := s in
  match c with
  | NResize ds => if ((length ds =? length dims) && forallb (fun d => 0 <=? d)%Z ds)%bool
                  then Some (map Z.to_nat ds, r) else None
  | NResizeDimension ps =>
      if forallb (fun p => 0 <=? snd p)%Z ps then Some (fold_left set_ext ps dims, r) else None
  | NResize1 n | NResizeDefault n _ => if (0 <=? n)%Z then Some (set_ext dims (r, n), r) else None
  | NClear => Some (set_ext dims (r, 0%Z), r)
  | NSetIndex i =>
      if ((0 <=? i)%Z && (i <? Z.of_nat (length dims))%Z)%bool then Some (dims, Z.to_nat i) else None
  | NReserve _ => Some s
  | NSet idx _ => if inside dims idx then Some s else None
  end.
Fixpoint extents_after (h : list (ncall V)) (s : list nat * nat) : option (list nat * nat) :=
  match h with
  | [] => Some s
  | c :: h' => match extents c s with Some s' => extents_after h' s' | None => None end
  end.
(** What the compiler enforces: the dimensions named in resizeDimension< ... > exist. *)
Definition static_ok (ndim : nat) (c : ncall V) : Prop :=
  match c with NResizeDimension ps => Forall (fun p => fst p < ndim) ps | _ => True end.

(** The storage of a: exactly l alive, in the first places, nothing else (for trivial T the unused
    slots may hold stale bytes). *)
Definition storage (triv : bool) (a : array V) (l : list V) : Prop :=
  exists rest, a_buf a = map Mem.Obj l ++ rest /\ (triv = false -> Forall (fun c => c = Mem.Raw) rest).
End Spec.

Section Growth.
Variable V : Type.
(** The capacity after a call made with capacity cap and elements l. *)
Definition capacity_after (c : vcall V) (l : list V) (cap : nat) : nat :=
  match c with
  | VEmplaceBack _ | VEmplace _ _ => if cap <? length l + 1 then 2 * (length l + 1) else cap
  | VInsert _ vs => if cap <? length l + length vs then 2 * (length l + length vs) else cap
  | VResize n | VResizeDefault n _ | VReserve n => Nat.max cap (Z.to_nat n)
  | VPopBack | VErase _ | VClear | VSet _ _ => cap
  end.

(** Number of reallocations along a sequence of states, read off the capacity ... *)
Fixpoint reallocations (states : list (array V)) : nat :=
  match states with
  | a :: ((b :: _) as rest) =>
      (if capacity a =? capacity b then 0 else 1) + reallocations rest
  | _ => 0
  end.
(** ... and number of elements moved by them: a reallocation moves size() elements. *)
Fixpoint moved (states : list (array V)) : nat :=
  match states with
  | a :: ((b :: _) as rest) =>
      (if capacity a =? capacity b then 0 else size a) + moved rest
  | _ => 0
  end.
End Growth.
