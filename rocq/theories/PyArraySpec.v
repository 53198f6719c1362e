(** pylvarray.Array as an N-dimensional array of values with an access level, and NumPy arrays on its memory. *)
From Coq Require Import List Arith ZArith Bool.
From Verif Require Import Base PyBase PyArraysSpec Array ArraySpec IndexingSpec GridSpec PyArray.
Import ListNotations.
Set Implicit Arguments.
Unset Strict Implicit.

(** A NumPy array: the part with the indices [v_fixed] of the memory of an array with the extents [v_dims] *)
Record sview : Type := mkV { v_block : nat; v_dims : list nat; v_fixed : list nat; v_write : bool }.
Record sarr (V : Type) : Type := mkS { s_grid : grid V; s_room : nat; s_level : Z; s_block : nat; s_views : list sview }.
(** What a call does: [Good]: it returns; [Ends]: it ends the process; [Freed]: it uses memory that was freed; [Lost]: it reads
    memory that the array does not use any more; [Wrong]: C++ calls outside of a precondition; [Huge]: strides of NumPy cannot
    be represented *)
Inductive does (V : Type) : Type := Good (s : sarr V) (r : ares V) | Ends | Freed | Lost | Wrong | Huge.
Arguments Ends {V}. Arguments Freed {V}. Arguments Lost {V}. Arguments Wrong {V}. Arguments Huge {V}.

(** The place of [t] in a list *)
Fixpoint rank (ts : list (list nat)) (t : list nat) : option nat :=
  match ts with [] => None | u :: ts' => if list_eq_dec Nat.eq_dec u t then Some 0 else option_map S (rank ts' t) end.
(** Indices as Python gives them *)
Fixpoint norms (dims : list nat) (idx : list Z) : option (list nat) :=
  match idx, dims with
  | [], _ => Some []
  | i :: idx', n :: dims' => match norm n i, norms dims' idx' with Some j, Some js => Some (j :: js) | _, _ => None end
  | _ :: _, [] => None
  end.

Section Spec.
Variable V : Type.
Variable perm : list nat.
Variable dflt : V.
Variable safe : nat -> nat -> bool.
Variable conv : nat -> nat -> Z -> Z.
Variable longlong : nat.
Variable imax sz host : Z.

(** The stride in bytes of every dimension is an npy_intp. *)
Definition representable (dims : list nat) : bool :=
  forallb (fun k => Z.of_nat (faster_product perm dims k) * sz <? 2 ^ 63)%Z (seq 0 (length perm)).
Definition v_shape (w : sview) : list nat := skipn (length (v_fixed w)) (v_dims w).
Definition store_at (l : list V) (p : nat) (v : V) : list V := if p <? length l then firstn p l ++ [v] ++ skipn (S p) l else l.

Definition spec_step (c : acall V) (s : sarr V) : does V :=
  let g := s_grid s in
  let fail e := Good s (RRaise e) in
  let resizing (k : does V) := if (s_level s <? RESIZEABLE)%Z then fail ERuntime else k in
  let keep v r := Good (mkS g (s_room s) (s_level s) (s_block s) (s_views s ++ [v])) r in
  let become (c : ncall V) :=
    match grid_step perm dflt c g with
    | Some g' =>
        let room := room_after c g' (s_room s) in
        Good (mkS g' room (s_level s) (if room =? s_room s then s_block s else S (s_block s)) (s_views s)) RNone
    | None => Wrong
    end in
  match c with
  | AGetIndex => Good s (RInt (Z.of_nat (g_rix g)))
  | ASetIndex d => resizing (if negb (in_int d) then fail EOverflow else match plain (length perm) d with Some _ => become (NSetIndex d) | None => fail EValue end)
  | AResize n => resizing (if negb (in_ll n) then fail EOverflow else if (n <? 0)%Z then fail EValue else if (imax <? n)%Z then Ends else become (NResize1 n))
  | AResizeAll obj => resizing (
      match parseNumPyArray safe conv longlong obj with
      | inr e => fail e
      | inl ds => if negb (length ds =? length perm) then fail ERuntime
                  else if forallb (fun d => (0 <=? d) && (d <=? imax))%Z ds then become (NResize ds) else Ends
      end)
  | AToNumPy =>
      if representable (g_dims g)
      then keep (mkV (s_block s) (g_dims g) [] (MODIFIABLE <=? s_level s)%Z) (RArray (length (s_views s)) (g_dims g) (MODIFIABLE <=? s_level s)%Z)
      else Huge
  | AGetLevel => Good s (RInt (s_level s))
  | ASetLevel level space =>
      let space := match space with Some p => p | None => host end in
      if negb (in_int level && in_int space) then fail EOverflow
      else if (space =? host)%Z then Good (mkS g (s_room s) level (s_block s) (s_views s)) RNone else fail EValue
  | WGet k idx =>
      match nth_error (s_views s) k with
      | None => fail EOther
      | Some w =>
          match norms (v_shape w) idx with
          | None => fail EIndex
          | Some js =>
              let t := v_fixed w ++ js in
              if length t <? length perm then keep (mkV (v_block w) (v_dims w) t (v_write w)) (RArray (length (s_views s)) (skipn (length t) (v_dims w)) (v_write w))
              else match rank (places perm (v_dims w)) t with
                   | Some p =>
                       if negb (v_block w =? s_block s) then Freed
                       else match nth_error (g_vals g) p with Some v => Good s (RElem v) | None => Lost end
                   | None => Wrong
                   end
          end
      end
  | WSet k idx v =>
      match nth_error (s_views s) k with
      | None => fail EOther
      | Some w =>
          if negb (v_write w) then fail EValue
          else match norms (v_shape w) idx with
          | None => fail EIndex
          | Some js =>
              let t := v_fixed w ++ js in
              match rank (places perm (v_dims w)) t with
              | Some p =>
                  if negb (v_block w =? s_block s) then Freed
                  else Good (mkS (mkG (g_dims g) (g_rix g) (store_at (g_vals g) p v)) (s_room s) (s_level s) (s_block s) (s_views s)) RNone
              | None => Wrong
              end
          end
      end
  | ACpp c => become c
  end.
Fixpoint spec_run (h : list (acall V)) (s : sarr V) : option (sarr V * list (ares V)) :=
  match h with
  | [] => Some (s, [])
  | c :: h' =>
      match spec_step c s with
      | Good s1 r => match spec_run h' s1 with Some (s2, rs) => Some (s2, r :: rs) | None => None end
      | _ => None
      end
  end.
(** C++ names existing dimensions; elements are written one at a time. *)
Definition proper (c : acall V) : Prop := match c with ACpp c => static_ok (length perm) c | _ => True end.
End Spec.
