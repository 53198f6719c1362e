(** What the tensor operations are specified with: contents of operands, and textbook linear algebra on index functions. *)
From Coq Require Import List Arith Bool.
From Verif Require Import Base Tensor.
Import ListNotations.
Set Implicit Arguments.

Section Contents.
Variable T : Type.
Notation memory := (list (option T)).

(** The operand has the stated extents and holds the stated values. *)
Definition vec (h : memory) (a : vref) (n : nat) (x : nat -> T) : Prop :=
  vlen a = n /\ forall i, i < n -> nth_error h (vat a i) = Some (Some (x i)).
Definition mtx (h : memory) (a : mref) (n m : nat) (x : nat -> nat -> T) : Prop :=
  (mrows a = n /\ mcols a = m) /\ forall i j, i < n -> j < m -> nth_error h (mat a i j) = Some (Some (x i j)).

(** The operand has the stated extents and its entries are different slots of the memory; it may hold nothing yet. *)
Definition vdst (h : memory) (a : vref) (n : nat) : Prop :=
  vlen a = n /\ (forall i, i < n -> vat a i < length h) /\
  forall i j, i < n -> j < n -> vat a i = vat a j -> i = j.
Definition mdst (h : memory) (a : mref) (n m : nat) : Prop :=
  (mrows a = n /\ mcols a = m) /\ (forall i j, i < n -> j < m -> mat a i j < length h) /\
  forall i j k l, i < n -> j < m -> k < n -> l < m -> mat a i j = mat a k l -> i = k /\ j = l.

(** The slots of an operand, and operands that share none. *)
Definition vslots (a : vref) (n : nat) (s : nat) : Prop := exists i, i < n /\ vat a i = s.
Definition mslots (a : mref) (n m : nat) (s : nat) : Prop := exists i j, i < n /\ j < m /\ mat a i j = s.
Definition apart (P Q : nat -> Prop) : Prop := forall s, P s -> Q s -> False.

(** Several operands that pairwise share no slot. *)
Definition disjoint (l : list (nat -> Prop)) : Prop := ForallOrdPairs apart l.

(** Only the slots in [P] were written. *)
Definition only (P : nat -> Prop) (h h' : memory) : Prop :=
  length h' = length h /\ forall s, ~ P s -> nth_error h' s = nth_error h s.

(** An operation succeeds, leaves the values [v] in [a] and writes nothing else. *)
Definition vwrote (h : memory) (r : outcome memory) (a : vref) (n : nat) (v : nat -> T) : Prop :=
  exists h', r = Ok h' /\ vec h' a n v /\ only (vslots a n) h h'.
Definition mwrote (h : memory) (r : outcome memory) (a : mref) (n m : nat) (v : nat -> nat -> T) : Prop :=
  exists h', r = Ok h' /\ mtx h' a n m v /\ only (mslots a n m) h h'.
End Contents.

Section Algebra.
Variable T : Type.
Variable ar : arith T.

(** The sum of a list from left to right. *)
Definition total (l : list T) : T :=
  match l with [] => zero ar | x :: l => fold_left (add ar) l x end.
(** f 0 + f 1 + ... + f (n - 1), from left to right; and the same with the summands added to [r]. *)
Definition sum (n : nat) (f : nat -> T) : T := total (map f (seq 0 n)).
Definition sum_onto (r : T) (n : nat) (f : nat -> T) : T := fold_left (add ar) (map f (seq 0 n)) r.

Definition product (l : list T) : T := fold_right (mul ar) (one ar) l.
Definition kronecker (i j : nat) : T := if i =? j then one ar else zero ar.

(** All the orderings of a list. *)
Fixpoint insertions (x : nat) (l : list nat) : list (list nat) :=
  match l with
  | [] => [[x]]
  | y :: t => (x :: l) :: map (cons y) (insertions x t)
  end.
Fixpoint orderings (l : list nat) : list (list nat) :=
  match l with
  | [] => [[]]
  | x :: t => flat_map (insertions x) (orderings t)
  end.
(** Parity of the number of pairs that are out of order. *)
Fixpoint odd_ordering (l : list nat) : bool :=
  match l with
  | [] => false
  | x :: t => xorb (Nat.odd (length (filter (fun y => y <? x) t))) (odd_ordering t)
  end.
(** Leibniz' formula for the determinant of an n x n matrix. *)
Definition leibniz (n : nat) (x : nat -> nat -> T) : T :=
  total (map (fun p => let q := product (map (fun i => x i (nth i p 0)) (seq 0 n)) in
                       if odd_ordering p then opp ar q else q)
             (orderings (seq 0 n))).

(** The identity, and two matrices that are inverses of each other on both sides. *)
Definition identity (n : nat) (x : nat -> nat -> T) : Prop := forall i, i < n -> forall j, j < n -> x i j = kronecker i j.
Definition inverses (n : nat) (x y : nat -> nat -> T) : Prop :=
  identity n (fun i j => sum n (fun k => mul ar (x i k) (y k j))) /\
  identity n (fun i j => sum n (fun k => mul ar (y i k) (x k j))).
End Algebra.

(** Voigt notation: the place of entry (i, j) of a symmetric n x n matrix, n = 2 or 3: the diagonal first, then
    12, 02, 01 for 3 x 3 and 01 for 2 x 2. *)
Definition voigt (n i j : nat) : nat :=
  if i =? j then i else match n with 2 => 2 | _ => 6 - (i + j) end.
(** The matrix that a Voigt vector stands for. *)
Definition dense {T} (n : nat) (s : nat -> T) (i j : nat) : T := s (voigt n i j).

(** The row and column that a place of Voigt notation stands for. *)
Definition vrow (n k : nat) : nat := nth k (match n with 2 => [0; 1; 0] | _ => [0; 1; 2; 1; 0; 0] end) 0.
Definition vcol (n k : nat) : nat := nth k (match n with 2 => [0; 1; 1] | _ => [0; 1; 2; 2; 2; 1] end) 0.
