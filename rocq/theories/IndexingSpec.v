(** Specification vocabulary for index arithmetic: no reference to the model. *)
From Coq Require Import List Arith ZArith Lia Permutation.
Import ListNotations.

(** An index tuple is valid for given extents. *)
Definition valid_index (dims : list nat) (idx : list Z) : Prop :=
  Forall2 (fun i d => (0 <= i < Z.of_nat d)%Z) idx dims.

(** [perm] lists each of 0..n-1 once. *)
Definition is_permutation (perm : list nat) (n : nat) : Prop := Permutation perm (seq 0 n).

(** Number of elements. *)
Definition extent_product (dims : list nat) : nat := fold_right Nat.mul 1 dims.

(** Product of the extents of the dimensions listed after position k in the permutation. *)
Definition faster_product (perm dims : list nat) (k : nat) : nat :=
  extent_product (map (fun p => nth p dims 0) (skipn (S k) perm)).

(** Lexicographic order on index tuples of equal length. *)
Fixpoint lex_lt (a b : list Z) : Prop :=
  match a, b with
  | x :: a', y :: b' => (x < y)%Z \/ (x = y /\ lex_lt a' b')
  | _, _ => False
  end.
