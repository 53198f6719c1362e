(** pylvarray.CRSMatrix as a list of rows, each the list of its entries with their columns in increasing order, with a
    number of columns and an access level. *)
From Coq Require Import List Arith ZArith Bool.
From Verif Require Import Base SortedSpec AoASpec SparsitySpec CRSSpec PyBase PyArraysSpec PyCRS.
Import ListNotations.
Set Implicit Arguments.
Unset Strict Implicit.

(** The three arrays of the compressed row format and what they mean: the number of entries before each row. *)
Fixpoint starts (W : Type) (n : nat) (M : list (list (Z * W))) : list nat :=
  match M with [] => [n] | r :: M' => n :: starts (n + length r) M' end.
Definition slice {X} (l : list X) (from to : nat) : list X := firstn (to - from) (skipn from l).

Section Spec.
Variable W : Type.
Variable add : W -> W -> W.
Variable safe : nat -> nat -> bool.
Variable convc : nat -> nat -> Z -> Z.
Variable conve : nat -> nat -> W -> W.
Variable ctype etype : nat.
Variable cmax imax host : Z.
Notation entries := (list (Z * W)).

(** An entry for a column which may have one already *)
Fixpoint with_entry (e : Z * W) (l : entries) : entries :=
  match l with
  | [] => [e]
  | x :: r => if (fst e <? fst x)%Z then e :: l else if (fst e =? fst x)%Z then l else x :: with_entry e r
  end.
Definition with_entries (l es : entries) : entries := fold_right with_entry l es.
Definition without (l : entries) (cs : list Z) : entries := filter (fun x => negb (existsb (Z.eqb (fst x)) cs)) l.
Definition plus (l adds : entries) : entries := map (fun x => (fst x, fold_left add (contributions adds (fst x)) (snd x))) l.
Definition set_nth (l : entries) (j : nat) (w : W) : entries :=
  match nth_error l j with Some x => firstn j l ++ (fst x, w) :: skipn (j + 1) l | None => l end.
Definition change (M : list entries) (i : nat) (f : entries -> entries) : list entries :=
  firstn i M ++ f (nth i M []) :: skipn (i + 1) M.
Definition grown_by (l l' : entries) : Z := (Z.of_nat (length l') - Z.of_nat (length l))%Z.

(** The values of the columns. The own view is not accepted since it is not writeable. *)
Definition columns_of (x : kcols) : list Z + perr :=
  match x with KObj obj => parseNumPyArray safe convc ctype obj | KOwn _ => inr ERuntime end.
Definition no_columns (M : list entries) (x : kcols) : option perr :=
  match x with
  | KObj _ => None
  | KOwn k => if negb (in_ll k) then Some EOverflow else match plain (length M) k with Some _ => None | None => Some ERuntime end
  end.
Definition both (x : kcols) (es : option (npy W)) : (list Z * list W) + perr :=
  match parseNumPyArray safe conve etype es, columns_of x with
  | inr e, _ => inr e
  | inl _, inr e => inr e
  | inl ws, inl cs => inl (cs, ws)
  end.

(** [compressed]: whether the rows have no unused capacity, which only to_scipy shows. *)
Definition mat_call (compressed : bool) (c : kcall W) (M : list entries) (nc : nat) (level : Z) : list entries * nat * Z * kres W :=
  let fail e := (M, nc, level, KRaise e) in
  let same r := (M, nc, level, r) in
  let row i (k : nat -> list entries * nat * Z * kres W) := match plain (length M) i with Some n => k n | None => fail ERuntime end in
  let some_row i k := if negb (in_ll i) then fail EOverflow else row i k in
  let resizing (k : list entries * nat * Z * kres W) := if (level <? RESIZEABLE)%Z then fail ERuntime else k in
  let given x k := match no_columns M x with Some e => fail e | None => k end in
  match c with
  | KNumRows => same (KInt (Z.of_nat (length M)))
  | KNumColumns => same (KInt (Z.of_nat nc))
  | KGetColumns i => some_row i (fun k => same (KColumns false (map fst (nth k M []))))
  | KGetEntries i => some_row i (fun k => same (KEntries (negb (level =? 0)%Z) (map snd (nth k M []))))
  | KSetColumn i _ _ => some_row i (fun _ => fail EValue)
  | KSetEntry i j w =>
      some_row i (fun k =>
        if (level =? 0)%Z then fail EValue else
        match norm (length (nth k M [])) j with
        | Some l => (change M k (fun r => set_nth r l w), nc, level, KNone)
        | None => fail EIndex
        end)
  | KToSciPy =>
      match M with
      | [] => fail ERuntime
      | _ => if negb compressed then fail ERuntime else
             same (KCsr (MODIFIABLE <=? level)%Z (map snd (concat M)) (map fst (concat M)) (starts 0 M) (length M, nc))
      end
  | KResize nr nc' cap =>
      resizing (
        if negb (in_ll nr && in_ll nc' && in_ll cap) then fail EOverflow else
        if ((nr <? 0) || (nc' <? 0) || (cap <? 0))%Z then fail ERuntime else
        (resized_to M (Z.to_nat nr) [], Z.to_nat nc', level, KNone))
  | KCompress => resizing (same KNone)
  | KInsert i x es =>
      given x (resizing (
        if negb (in_ll i) then fail EOverflow else
        match both x es with
        | inr e => fail e
        | inl (cs, ws) =>
            if negb (length cs =? length ws) then fail ERuntime else
            row i (fun k =>
              let r' := with_entries (nth k M []) (combine cs ws) in
              (change M k (fun _ => r'), nc, level, KInt (grown_by (nth k M []) r')))
        end))
  | KRemove i x =>
      given x (resizing (
        if negb (in_ll i) then fail EOverflow else
        match columns_of x with
        | inr e => fail e
        | inl cs =>
            row i (fun k =>
              let r' := without (nth k M []) cs in
              (change M k (fun _ => r'), nc, level, KInt (grown_by r' (nth k M []))))
        end))
  | KAdd i x es =>
      given x (resizing (
        if negb (in_ll i) then fail EOverflow else
        match both x es with
        | inr e => fail e
        | inl (cs, ws) => row i (fun k => (change M k (fun r => plus r (combine cs ws)), nc, level, KNone))
        end))
  | KGetLevel => same (KInt level)
  | KSetLevel l space =>
      if negb (in_int l && in_int space) then fail EOverflow else if negb (space =? host)%Z then fail EValue else (M, nc, l, KNone)
  end.
(** [flags]: whether the matrix is compressed at each call *)
Fixpoint mat_calls (flags : list bool) (h : list (kcall W)) (M : list entries) (nc : nat) (level : Z) :
  list entries * nat * Z * list (kres W) :=
  match h, flags with
  | c :: h', z :: flags' =>
      let '(M1, n1, v1, r) := mat_call z c M nc level in
      let '(M2, n2, v2, rs) := mat_calls flags' h' M1 n1 v1 in (M2, n2, v2, r :: rs)
  | _, _ => (M, nc, level, [])
  end.

(** What is asked of the program: sorted and unique columns within the matrix, as many columns as values and only
    existing columns for add_to_row; dimensions INDEX_TYPE and COL_TYPE can hold, no columns in use cut off. *)
Definition k_allowed (c : kcall W) (M : list entries) (nc : nat) : Prop :=
  match c with
  | KResize nr nc' cap =>
      (nr <= imax /\ nc' <= imax /\ cap <= imax /\ nc' - 1 <= cmax)%Z /\
      ((0 <= nc')%Z -> Forall (fun r => Forall (fun e => in_range (Z.to_nat nc') (fst e)) r) (firstn (Z.to_nat nr) M))
  | KInsert _ x es => forall cs ws, both x es = inl (cs, ws) -> increasing Z.ltb cs /\ Forall (in_range nc) cs
  | KRemove _ x => forall cs, columns_of x = inl cs -> increasing Z.ltb cs
  | KAdd i x es => forall cs ws, both x es = inl (cs, ws) ->
      length ws <= length cs /\ forall k, plain (length M) i = Some k -> Forall (fun c => In c (map fst (nth k M []))) (firstn (length ws) cs)
  | _ => True
  end.
Fixpoint k_valid (h : list (kcall W)) (M : list entries) (nc : nat) (level : Z) : Prop :=
  match h with
  | [] => True
  | c :: h' => k_allowed c M nc /\ let '(M1, n1, v1, _) := mat_call true c M nc level in k_valid h' M1 n1 v1
  end.
End Spec.
