(** What an N-dimensional array of values does, whatever the order of its memory: the specification of Array. *)
From Coq Require Import List Arith ZArith.
From Verif Require Import Array ArraySpec IndexingSpec.
Import ListNotations.
Set Implicit Arguments.
Unset Strict Implicit.

(** The tuple [t] with [i] at [d] *)
Definition put (t : list nat) (d i : nat) : list nat := firstn d t ++ [i] ++ skipn (S d) t.
(** The tuples that differ from [t] only in the dimensions [q], each below its extent; the first dimension of [q] varies
    slowest. *)
Fixpoint tuples (dims q t : list nat) : list (list nat) :=
  match q with
  | [] => [t]
  | d :: q' => flat_map (fun i => tuples dims q' (put t d i)) (seq 0 (nth d dims 0))
  end.
(** All indices of an array with these extents, in the order of memory *)
Definition places (perm dims : list nat) : list (list nat) := tuples dims perm (repeat 0 (length dims)).

Section Grid.
Variable V : Type.
Variable perm : list nat.
Variable dflt : V.
Fixpoint look (l : list (list nat * V)) (t : list nat) : option V :=
  match l with [] => None | (u, v) :: l' => if list_eq_dec Nat.eq_dec u t then Some v else look l' t end.

(** The extents, the dimension resize( n ) changes, and the values in the order of memory *)
Record grid : Type := mkG { g_dims : list nat; g_rix : nat; g_vals : list V }.
(** The value at an index, in the shape [dims] *)
Definition seen (dims : list nat) (l : list V) (t : list nat) : option V := look (combine (places perm dims) l) t.
Definition value (g : grid) (t : list nat) : option V := seen (g_dims g) (g_vals g) t.
(** The values stay where they are in memory. *)
Definition fitted (g : grid) (dims : list nat) : grid := mkG dims (g_rix g) (with_length (g_vals g) (extent_product dims) dflt).
(** The values stay at their indices; [v] at new indices. *)
Definition reshaped (g : grid) (dims : list nat) (v : V) : grid :=
  mkG dims (g_rix g) (map (fun t => match value g t with Some x => x | None => v end) (places perm dims)).
Definition written (g : grid) (t : list nat) (v : V) : grid :=
  mkG (g_dims g) (g_rix g) (map (fun p => if list_eq_dec Nat.eq_dec (fst p) t then v else snd p) (combine (places perm (g_dims g)) (g_vals g))).
(** None when the call must abort *)
Definition grid_step (c : ncall V) (g : grid) : option grid :=
  let dims := g_dims g in let r := g_rix g in
  match c with
  | NResize ds => if ((length ds =? length dims) && forallb (fun d => 0 <=? d)%Z ds)%bool then Some (fitted g (map Z.to_nat ds)) else None
  | NResizeDimension ps => if forallb (fun p => 0 <=? snd p)%Z ps then Some (fitted g (fold_left set_ext ps dims)) else None
  | NResize1 n => if (0 <=? n)%Z then Some (reshaped g (set_ext dims (r, n)) dflt) else None
  | NResizeDefault n v => if (0 <=? n)%Z then Some (reshaped g (set_ext dims (r, n)) v) else None
  | NClear => Some (mkG (set_ext dims (r, 0%Z)) r [])
  | NSetIndex i => if ((0 <=? i)%Z && (i <? Z.of_nat (length dims))%Z)%bool then Some (mkG dims (Z.to_nat i) (g_vals g)) else None
  | NReserve _ => Some g
  | NSet idx v => if inside dims idx then Some (written g (map Z.to_nat idx) v) else None
  end.
Fixpoint grid_run (h : list (ncall V)) (g : grid) : option grid :=
  match h with [] => Some g | c :: h' => match grid_step c g with Some g' => grid_run h' g' | None => None end end.
Definition new_grid : grid := mkG (repeat 0 (length perm)) 0 [].
(** The number of elements there is room for after the call that gives [g], when there was room for [cap] before it *)
Definition room_after (c : ncall V) (g : grid) (cap : nat) : nat :=
  match c with
  | NResize _ | NResizeDimension _ | NResize1 _ | NResizeDefault _ _ => Nat.max cap (extent_product (g_dims g))
  | NReserve n => Nat.max cap (Z.to_nat n)
  | NClear | NSetIndex _ | NSet _ _ => cap
  end.
(** [a] is the array with the extents and values of [g]. *)
Definition gshows (chk : bool) (a : array V) (g : grid) : Prop :=
  a_dims a = g_dims g /\ a_rix a = g_rix g /\ length (g_vals g) = extent_product (g_dims g) /\
  forall t, Forall2 lt t (g_dims g) -> exists v, value g t = Some v /\ at_ chk perm a (map Z.of_nat t) = Base.Ok v.
End Grid.
