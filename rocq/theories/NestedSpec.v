(** What programs over arrays of arrays mean. [nspec_run]: the protocol, with the values as lists of
    lists; [nflat_run]: the same without any memory spaces. *)
From Coq Require Import List Arith Bool.
From Verif Require Import ChaiSpec Nested.
Import ListNotations.
Set Implicit Arguments.

Section Spec.
Variable V : Type.
(** An inner array: its values; whether it may be written in the current space. *)
Record inner : Type := mkI { i_vals : list (option V); i_dirty : bool }.
(** A handle to the outer array: the allocation it belongs to, the space it points into, its size. *)
Record ohandle : Type := mkO { o_gen : nat; o_space : option nat; o_size : nat }.
(** The inner arrays; the outer capacity; the current space and whether the outer array is touched there;
    the number of outer reallocations; the handles. *)
Record nspec : Type := mkNS
  { v_in : list inner; v_cap : nat; v_cur : nat; v_dirty : bool; v_gen : nat; v_hs : list ohandle }.

Definition moved (touch : bool) (x : inner) : inner := mkI (i_vals x) touch.
(** Moving to another space needs the number of values and, if the array is on the host, a handle that
    points there. A move to the current space touches the outer array only. *)
Definition nspec_move (st : nspec) (n : nat) (s : option nat) (touch : bool) : option nspec :=
  match nth_error (v_hs st) n with
  | None => None
  | Some h =>
      match s with
      | None => Some st
      | Some s =>
          if negb (o_gen h =? v_gen st) then None
          else if v_cap st =? 0 then Some st
          else if s =? v_cur st then
            Some (mkNS (v_in st) (v_cap st) (v_cur st) (v_dirty st || touch) (v_gen st)
                       (put (v_hs st) n (mkO (o_gen h) (Some s) (o_size h))))
          else if ((s <? 2) && (o_size h =? length (v_in st)) && ((v_cur st =? 1) || eqo (o_space h) 0))%bool then
            Some (mkNS (map (moved touch) (v_in st)) (v_cap st) s touch (v_gen st)
                       (put (v_hs st) n (mkO (o_gen h) (Some s) (o_size h))))
          else None
      end
  end.
(** A handle used by code in space s *)
Definition usable (st : nspec) (n s : nat) : option ohandle :=
  match nth_error (v_hs st) n with
  | Some h => if ((o_gen h =? v_gen st) && eqo (o_space h) s && (s =? v_cur st))%bool then Some h else None
  | None => None
  end.
Definition kept (size cap : nat) (l : list (option V)) : list (option V) :=
  firstn (Nat.min cap size) l ++ repeat None (cap - Nat.min cap size).

Definition nspec_step (o : nop V) (st : nspec) : option (nspec * option V) :=
  let plain m := match m with Some st' => Some (st', None) | None => None end in
  match o with
  | NCopy n es =>
      match nth_error (v_hs st) n with
      | Some h => plain (nspec_move (mkNS (v_in st) (v_cap st) (v_cur st) (v_dirty st) (v_gen st) (v_hs st ++ [h])) (length (v_hs st)) es true)
      | None => None
      end
  | NMove n s touch => plain (nspec_move st n s touch)
  | NTouch n s =>
      match nth_error (v_hs st) n with
      | Some h =>
          if ((o_gen h =? v_gen st) && (s =? v_cur st) && negb (v_cap st =? 0))%bool
          then Some (mkNS (v_in st) (v_cap st) (v_cur st) true (v_gen st) (v_hs st), None) else None
      | None => None
      end
  | NPush n =>
      match nth_error (v_hs st) n with
      | Some h =>
          let size := length (v_in st) in
          if negb ((o_gen h =? v_gen st) && (o_size h =? size) && ((size =? 0) || ((v_cur st =? 0) && eqo (o_space h) 0)))%bool then None
          else if v_cap st <? size + 1 then
            Some (mkNS (v_in st ++ [mkI [] true]) (2 * (size + 1)) 0 true (v_gen st + 1) (put (v_hs st) n (mkO (v_gen st + 1) (Some 0) (size + 1))), None)
          else if ((v_cur st =? 0) && eqo (o_space h) 0 && v_dirty st)%bool then
            Some (mkNS (v_in st ++ [mkI [] true]) (v_cap st) 0 true (v_gen st) (put (v_hs st) n (mkO (o_gen h) (Some 0) (size + 1))), None)
          else None
      | None => None
      end
  | NInner n i size cap =>
      match usable st n 0, nth_error (v_in st) i with
      | Some _, Some x =>
          if (v_dirty st && (size <=? length (i_vals x)))%bool
          then Some (mkNS (put (v_in st) i (mkI (kept size cap (i_vals x)) true)) (v_cap st) (v_cur st) (v_dirty st) (v_gen st) (v_hs st), None)
          else None
      | _, _ => None
      end
  | NWrite n i j s v =>
      match usable st n s, nth_error (v_in st) i with
      | Some _, Some x =>
          if (i_dirty x && (j <? length (i_vals x)))%bool
          then Some (mkNS (put (v_in st) i (mkI (put (i_vals x) j (Some v)) (i_dirty x))) (v_cap st) (v_cur st) (v_dirty st) (v_gen st) (v_hs st), None)
          else None
      | _, _ => None
      end
  | NRead n i j s =>
      match usable st n s, nth_error (v_in st) i with
      | Some _, Some x => match nth_error (i_vals x) j with Some (Some v) => Some (st, Some v) | _ => None end
      | _, _ => None
      end
  end.
Fixpoint nspec_run (l : list (nop V)) (st : nspec) : option (nspec * list V) :=
  match l with
  | [] => Some (st, [])
  | o :: l' =>
      match nspec_step o st with
      | Some (st1, x) =>
          match nspec_run l' st1 with
          | Some (st2, ys) => Some (st2, match x with Some v => v :: ys | None => ys end)
          | None => None
          end
      | None => None
      end
  end.
Definition nspec_start : nspec := mkNS [] 0 0 true 0 [mkO 0 None 0].

(** ** Without spaces: a list of lists *)
Definition nflat_step (o : nop V) (f : list (list (option V))) : option (list (list (option V)) * option V) :=
  match o with
  | NCopy _ _ | NMove _ _ _ | NTouch _ _ => Some (f, None)
  | NPush _ => Some (f ++ [[]], None)
  | NInner _ i size cap => match nth_error f i with Some l => Some (put f i (kept size cap l), None) | None => None end
  | NWrite _ i j _ v => match nth_error f i with Some l => Some (put f i (put l j (Some v)), None) | None => None end
  | NRead _ i j _ =>
      match nth_error f i with
      | Some l => match nth_error l j with Some (Some v) => Some (f, Some v) | _ => None end
      | None => None
      end
  end.
Fixpoint nflat_run (l : list (nop V)) (f : list (list (option V))) : option (list V) :=
  match l with
  | [] => Some []
  | o :: l' =>
      match nflat_step o f with
      | Some (f1, x) =>
          match nflat_run l' f1 with
          | Some ys => Some (match x with Some v => v :: ys | None => ys end)
          | None => None
          end
      | None => None
      end
  end.
End Spec.
