(** Calls of members of a view by several threads: what each call does to the row it is about, as lists. [c] is the
    capacity of the row; [None]: the call is not allowed. *)
From Coq Require Import List Arith ZArith Bool.
From Verif Require Import Base.
Import ListNotations.
Set Implicit Arguments.

(** One call after another; [(i, op)] is the call [op] on row [i]. *)
Section Calls.
Variables S Op R : Type.
Variable next : nat -> Op -> S -> option (S * R).
Variable caps : list nat.
Fixpoint calls_run (q : list (nat * Op)) (M : list S) : option (list S * list R) :=
  match q with
  | [] => Some (M, [])
  | (i, op) :: q' =>
      match nth_error caps i, nth_error M i with
      | Some c, Some x =>
          match next c op x with
          | None => None
          | Some (x', r) => match calls_run q' (upd M i x') with None => None | Some (M', rs) => Some (M', r :: rs) end
          end
      | _, _ => None
      end
  end.
End Calls.
(** No two threads use the same row. *)
Definition separate {Op} (ths : list (list (nat * Op))) : Prop :=
  forall t u q q' i, nth_error ths t = Some q -> nth_error ths u = Some q' -> t <> u -> In i (map fst q) -> ~ In i (map fst q').
(** Every one of [n] threads is among the next ones at least [k] times. *)
Definition fair (n k : nat) (sched : list nat) : Prop := forall t, t < n -> k <= count_occ Nat.eq_dec sched t.

Inductive answer (V : Type) : Type := Done | Truth (b : bool) | Count (n : nat) | Value (v : V).
Arguments Done {V}. Arguments Truth {V} b. Arguments Count {V} n.

(** Arrays *)
Inductive vcall (V : Type) : Type :=
| VBack (v : V) | VAppend (vs : list V) | VEmplace (j : nat) (v : V) | VInsert (j : nat) (vs : list V) | VErase (j k : nat)
| VSet (j : nat) (v : V) | VGet (j : nat) | VSize.
Arguments VErase {V} j k. Arguments VGet {V} j. Arguments VSize {V}.
Definition guard {A} (b : bool) (x : A) : option A := if b then Some x else None.
Definition v_next {V} (c : nat) (op : vcall V) (l : list V) : option (list V * answer V) :=
  match op with
  | VBack v => guard (length l + 1 <=? c) (l ++ [v], Done)
  | VAppend vs => guard (length l + length vs <=? c) (l ++ vs, Done)
  | VEmplace j v => guard ((j <=? length l) && (length l + 1 <=? c)) (firstn j l ++ v :: skipn j l, Done)
  | VInsert j vs => guard ((j <=? length l) && (length l + length vs <=? c)) (firstn j l ++ vs ++ skipn j l, Done)
  | VErase j k => guard ((j <? length l) && (j + k <=? length l)) (firstn j l ++ skipn (j + k) l, Done)
  | VSet j v => guard (j <? length l) (firstn j l ++ v :: skipn (j + 1) l, Done)
  | VGet j => match nth_error l j with Some v => Some (l, Value v) | None => None end
  | VSize => Some (l, Count (length l))
  end.

(** Sets as increasing lists of elements with keys *)
Section Sets.
Variables P K : Type.
Variable key : P -> K.
Variable lt eqb : K -> K -> bool.
Fixpoint with_elem (x : P) (l : list P) : list P :=
  match l with
  | [] => [x]
  | y :: t => if lt (key x) (key y) then x :: l else if lt (key y) (key x) then y :: with_elem x t else l
  end.
Definition without (ks : list K) (l : list P) : list P := filter (fun x => negb (existsb (eqb (key x)) ks)) l.
Definition has (k : K) (l : list P) : bool := existsb (fun x => eqb (key x) k) l.
Fixpoint incb (ks : list K) : bool :=
  match ks with
  | [] => true
  | k :: t => match t with [] => true | k' :: _ => lt k k' && incb t end
  end.
End Sets.
Inductive scall (V : Type) : Type :=
| SInsert (v : V) | SInserts (vs : list V) | SRemove (v : V) | SRemoves (vs : list V) | SContains (v : V) | SGet (j : nat) | SSize.
Arguments SGet {V} j. Arguments SSize {V}.
Definition s_next {V} (lt eqb : V -> V -> bool) (c : nat) (op : scall V) (l : list V) : option (list V * answer V) :=
  let id := fun v : V => v in
  match op with
  | SInsert v => let l' := with_elem id lt v l in guard (length l' <=? c) (l', Truth (negb (has id eqb v l)))
  | SInserts vs =>
      let l' := fold_right (with_elem id lt) l vs in guard (incb lt vs && (length l' <=? c)) (l', Count (length l' - length l))
  | SRemove v => Some (without id eqb [v] l, Truth (has id eqb v l))
  | SRemoves vs => let l' := without id eqb vs l in guard (incb lt vs) (l', Count (length l - length l'))
  | SContains v => Some (l, Truth (has id eqb v l))
  | SGet j => match nth_error l j with Some v => Some (l, Value v) | None => None end
  | SSize => Some (l, Count (length l))
  end.

(** Sparsity patterns: sets of columns below [nc]; [SContains] stands for empty( row, col ). *)
Definition column_ok (nc : nat) (c : Z) : bool := ((0 <=? c) && (c <? Z.of_nat nc))%Z.
Definition scols (op : scall Z) : list Z :=
  match op with SInsert v => [v] | SInserts vs => vs | SRemove v => [v] | SRemoves vs => vs | _ => [] end.
Definition p_next (nc c : nat) (op : scall Z) (l : list Z) : option (list Z * answer Z) :=
  if forallb (column_ok nc) (scols op) then
    match op with
    | SContains v => Some (l, Truth (negb (has (fun v => v) Z.eqb v l)))
    | _ => s_next Z.ltb Z.eqb c op l
    end
  else None.

(** Matrices: rows of columns and entries *)
Inductive mcall (W : Type) : Type :=
| MInsert (col : Z) (w : W) | MInserts (cws : list (Z * W)) | MRemove (col : Z) | MRemoves (cols : list Z)
| MEmpty (col : Z) | MColumn (j : nat) | MEntry (j : nat) | MSize | MSet (w : W).
Arguments MRemove {W} col. Arguments MRemoves {W} cols. Arguments MEmpty {W} col. Arguments MColumn {W} j. Arguments MEntry {W} j. Arguments MSize {W}.
Definition m_next {W} (c : nat) (op : mcall W) (l : list (Z * W)) : option (list (Z * W) * answer (Z + W)) :=
  let key := @fst Z W in
  match op with
  | MInsert col w => let l' := with_elem key Z.ltb (col, w) l in guard (length l' <=? c) (l', Truth (negb (has key Z.eqb col l)))
  | MInserts cws =>
      let l' := fold_right (with_elem key Z.ltb) l cws in guard (incb Z.ltb (map fst cws) && (length l' <=? c)) (l', Count (length l' - length l))
  | MRemove col => Some (without key Z.eqb [col] l, Truth (has key Z.eqb col l))
  | MRemoves cols => let l' := without key Z.eqb cols l in guard (incb Z.ltb cols) (l', Count (length l - length l'))
  | MEmpty col => Some (l, Truth (negb (has key Z.eqb col l)))
  | MColumn j => match nth_error l j with Some x => Some (l, Value (inl (fst x))) | None => None end
  | MEntry j => match nth_error l j with Some x => Some (l, Value (inr (snd x))) | None => None end
  | MSize => Some (l, Count (length l))
  | MSet w => Some (map (fun x => (fst x, w)) l, Done)
  end.
