(** pylvarray.SortedArray and pylvarray.ArrayOfSets as sets, given by their increasing lists, with an access level. *)
From Coq Require Import List Arith ZArith Bool.
From Verif Require Import Base SortedSpec PyBase PyArrays PyArraysSpec PySets.
Import ListNotations.
Set Implicit Arguments.
Unset Strict Implicit.

Section Spec.
Variable V : Type.
Variable lt eqb : V -> V -> bool.
Variable safe : nat -> nat -> bool.
Variable conv : nat -> nat -> V -> V.
Variable vtype : nat.
Variable host imax : Z.

(** One more element of an increasing list *)
Fixpoint with_elem (v : V) (l : list V) : list V :=
  match l with [] => [v] | x :: r => if lt v x then v :: l else if eqb v x then l else x :: with_elem v r end.
Definition union (l vs : list V) : list V := fold_right with_elem l vs.
Definition minus (l vs : list V) : list V := filter (fun x => negb (existsb (eqb x) vs)) l.
Definition gain (l l' : list V) : Z := (Z.of_nat (length l') - Z.of_nat (length l))%Z.

(** * SortedArray *)
(** The own view is not accepted as values since it is not writeable. *)
Definition q_values (x : qvals V) : list V + perr :=
  match x with QObj obj => parseNumPyArray safe conv vtype obj | QOwn => inr ERuntime end.
Definition set_call (c : qcall V) (l : list V) (level : Z) : list V * Z * pres V :=
  let fail e := (l, level, PRaise e) in
  let changing (x : qvals V) (f : list V -> list V) (count : list V -> Z) :=
    if (level <? RESIZEABLE)%Z then fail ERuntime else
    match q_values x with inl vs => (f vs, level, PInt (count (f vs))) | inr e => fail e end in
  match c with
  | QInsert x => changing x (union l) (fun l' => gain l l')
  | QRemove x => changing x (minus l) (fun l' => gain l' l)
  | QToNumPy => (l, level, PView false l)
  | QGetLevel => (l, level, PInt level)
  | QSetLevel n space => if negb (in_int n && in_int space) then fail EOverflow else if negb (space =? host)%Z then fail EValue else (l, n, PNone)
  end.
Fixpoint set_calls (h : list (qcall V)) (l : list V) (level : Z) : list V * Z * list (pres V) :=
  match h with
  | [] => (l, level, [])
  | c :: h' => let '(l1, v1, r) := set_call c l level in let '(l2, v2, rs) := set_calls h' l1 v1 in (l2, v2, r :: rs)
  end.
(** The values handed over are sorted and unique. *)
Definition q_sorted (c : qcall V) : Prop :=
  match c with
  | QInsert x | QRemove x => forall vs, q_values x = inl vs -> increasing lt vs
  | _ => True
  end.

(** * ArrayOfSets *)
Notation sets := (list (list V)).
Definition t_values (x : tvals V) : list V + perr :=
  match x with TVObj obj => parseNumPyArray safe conv vtype obj | TVOwn _ => inr ERuntime end.
Definition no_view (M : sets) (x : tvals V) : bool :=
  match x with TVObj _ => false | TVOwn i => match norm (length M) i with Some _ => false | None => true end end.
Definition sets_call (c : ptcall V) (M : sets) (level : Z) : sets * Z * pres V :=
  let fail e := (M, level, PRaise e) in
  let resizing (k : sets * Z * pres V) := if (level <? RESIZEABLE)%Z then fail ERuntime else k in
  let on_set i (k : nat -> sets * Z * pres V) := match plain (length M) i with Some p => k p | None => fail EIndex end in
  match c with
  | STLen => (M, level, PInt (Z.of_nat (length M)))
  | STGet i => match norm (length M) i with Some k => (M, level, PView false (nth k M [])) | None => fail EIndex end
  | STIter => (M, level, PViews (map (pair false) M))
  | STDel i =>
      if negb (in_ll i) then fail EIndex else
      resizing (match norm (length M) i with Some k => (firstn k M ++ skipn (k + 1) M, level, PNone) | None => fail EIndex end)
  | STSetItem i => if negb (in_ll i) then fail EIndex else resizing (fail EType)
  | STSetElem i _ _ => match norm (length M) i with Some _ => fail EValue | None => fail EIndex end
  | STInsertInto i x =>
      if no_view M x then fail EIndex else
      resizing (if negb (in_ll i) then fail EOverflow else
        on_set i (fun k =>
          match t_values x with
          | inl vs => (replace M k (union (nth k M []) vs), level, PInt (gain (nth k M []) (union (nth k M []) vs)))
          | inr e => fail e
          end))
  | STInsert i cap =>
      resizing (if negb (in_ll i && in_ll cap) then fail EOverflow else
        match plain (length M + 1) i with
        | Some k => if (cap <? 0)%Z then fail EValue else (firstn k M ++ [] :: skipn k M, level, PNone)
        | None => fail EIndex
        end)
  | STEraseFrom i x =>
      if no_view M x then fail EIndex else
      resizing (if negb (in_ll i) then fail EOverflow else
        on_set i (fun k =>
          match t_values x with
          | inl vs => (replace M k (minus (nth k M []) vs), level, PInt (gain (minus (nth k M []) vs) (nth k M [])))
          | inr e => fail ESystem
          end))
  | STGetLevel => (M, level, PInt level)
  | STSetLevel l => if in_int l then (M, l, PNone) else fail EOverflow
  end.
Fixpoint sets_calls (h : list (ptcall V)) (M : sets) (level : Z) : sets * Z * list (pres V) :=
  match h with
  | [] => (M, level, [])
  | c :: h' => let '(M1, v1, r) := sets_call c M level in let '(M2, v2, rs) := sets_calls h' M1 v1 in (M2, v2, r :: rs)
  end.
(** The values handed over are sorted and unique, a capacity fits INDEX_TYPE. *)
Definition t_sorted (c : ptcall V) : Prop :=
  match c with
  | STInsertInto _ x | STEraseFrom _ x => forall vs, t_values x = inl vs -> increasing lt vs
  | STInsert _ cap => (cap <= imax)%Z
  | _ => True
  end.
End Spec.
