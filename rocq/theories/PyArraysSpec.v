(** pylvarray.ArrayOfArrays as a Python list of lists with an access level. *)
From Coq Require Import List Arith ZArith Bool.
From Verif Require Import Base PyBase PyArrays.
Import ListNotations.
Set Implicit Arguments.
Unset Strict Implicit.

(** The position a Python index means in a list of [n] elements *)
Definition norm (n : nat) (i : Z) : option nat :=
  if ((in_ll i) && ((0 <=? i) && (i <? Z.of_nat n)))%Z then Some (Z.to_nat i)
  else if ((in_ll i) && ((i <? 0) && (0 <=? i + Z.of_nat n)))%Z then Some (Z.to_nat (i + Z.of_nat n))
  else None.
(** A position which is not counted from the end *)
Definition plain (n : nat) (i : Z) : option nat := if ((0 <=? i) && (i <? Z.of_nat n))%Z then Some (Z.to_nat i) else None.

Section Spec.
Variable V : Type.
Variable safe : nat -> nat -> bool.
Variable conv : nat -> nat -> V -> V.
Variable vtype : nat.
Notation lists := (list (list V)).

Definition replace (M : lists) (k : nat) (r : list V) : lists := firstn k M ++ r :: skipn (k + 1) M.
Definition values_of (M : lists) (x : pvals V) : list V + perr :=
  match x with
  | PForeign obj => parseNumPyArray safe conv vtype obj
  | POwnRow i => match norm (length M) i with Some k => inl (nth k M []) | None => inr EIndex end
  end.
(** The view of an own row is an argument which may not exist. *)
Definition no_argument (M : lists) (x : pvals V) : bool :=
  match x with PForeign _ => false | POwnRow i => match norm (length M) i with Some _ => false | None => true end end.

Definition list_step (c : pcall V) (M : lists) (level : Z) : lists * Z * pres V :=
  let fail e := (M, level, PRaise e) in
  let resizing (k : lists * Z * pres V) := if (level <? RESIZEABLE)%Z then fail ERuntime else k in
  let writeable := (MODIFIABLE <=? level)%Z in
  match c with
  | PLen => (M, level, PInt (Z.of_nat (length M)))
  | PGet i => match norm (length M) i with Some k => (M, level, PView writeable (nth k M [])) | None => fail EIndex end
  | PIter => (M, level, PViews (map (pair writeable) M))
  | PDel i =>
      if negb (in_ll i) then fail EIndex else
      resizing (match norm (length M) i with Some k => (firstn k M ++ skipn (k + 1) M, level, PNone) | None => fail EIndex end)
  | PSetItem i => if negb (in_ll i) then fail EIndex else resizing (fail EType)
  | PSetElem i j v =>
      match norm (length M) i with
      | Some k =>
          if negb writeable then fail EValue else
          match norm (length (nth k M [])) j with
          | Some l => (replace M k (firstn l (nth k M []) ++ v :: skipn (l + 1) (nth k M [])), level, PNone)
          | None => fail EIndex
          end
      | None => fail EIndex
      end
  | PInsertInto i j x =>
      if no_argument M x then fail EIndex else
      resizing (
        if negb (in_ll i && in_ll j) then fail EOverflow else
        match plain (length M) i with
        | Some k =>
            match plain (length (nth k M []) + 1) j with
            | Some l =>
                match values_of M x with
                | inl vs => (replace M k (firstn l (nth k M []) ++ vs ++ skipn l (nth k M [])), level, PNone)
                | inr e => fail e
                end
            | None => fail EIndex
            end
        | None => fail EIndex
        end)
  | PInsert i x =>
      if no_argument M x then fail EIndex else
      resizing (
        if negb (in_ll i) then fail EOverflow else
        match plain (length M + 1) i with
        | Some k =>
            match values_of M x with
            | inl vs => (firstn k M ++ vs :: skipn k M, level, PNone)
            | inr e => fail e
            end
        | None => fail EIndex
        end)
  | PEraseFrom i j =>
      resizing (
        if negb (in_ll i && in_ll j) then fail EOverflow else
        match plain (length M) i with
        | Some k =>
            match plain (length (nth k M [])) j with
            | Some l => (replace M k (firstn l (nth k M []) ++ skipn (l + 1) (nth k M [])), level, PNone)
            | None => fail EIndex
            end
        | None => fail EIndex
        end)
  | PGetLevel => (M, level, PInt level)
  | PSetLevel l => if in_int l then (M, l, PNone) else fail EOverflow
  end.
Fixpoint list_run (h : list (pcall V)) (M : lists) (level : Z) : lists * Z * list (pres V) :=
  match h with
  | [] => (M, level, [])
  | c :: h' =>
      let '(M1, l1, r) := list_step c M level in
      let '(M2, l2, rs) := list_run h' M1 l1 in
      (M2, l2, r :: rs)
  end.
(** No argument is a view of the array itself. *)
Definition foreign (c : pcall V) : bool :=
  match c with PInsertInto _ _ (POwnRow _) | PInsert _ (POwnRow _) => false | _ => true end.
End Spec.
