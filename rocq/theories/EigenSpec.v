(** Eigenvalues and eigenvectors of matrices of real numbers. *)
From Coq Require Import Reals List Arith.
From Verif Require Import Base Tensor TensorSpec.
Set Implicit Arguments.
Local Open Scope R_scope.

Definition reals : arith R := {| zero := 0; one := 1; add := Rplus; sub := Rminus; mul := Rmult; div := Rdiv; opp := Ropp |}.
Notation rsum := (sum reals).

(** The eigenvalues with their multiplicities: the characteristic polynomial is the product of the x - l i. In ascending order. *)
Definition characteristic (n : nat) (A : nat -> nat -> R) (x : R) : R :=
  leibniz reals n (fun i j => x * kronecker reals i j - A i j).
Definition eigenvalues (n : nat) (A : nat -> nat -> R) (l : nat -> R) : Prop :=
  (forall x, characteristic n A x = product reals (map (fun i => x - l i) (seq 0 n))) /\
  forall i j, (i <= j < n)%nat -> l i <= l j.

(** Row i of [v] is a unit vector, and orthogonal to the other rows. *)
Definition orthonormal (n : nat) (v : nat -> nat -> R) : Prop :=
  forall i j, (i < n)%nat -> (j < n)%nat -> rsum n (fun k => v i k * v j k) = kronecker reals i j.

(** A w - l w, its squared length, and eigenvectors. *)
Definition residual (n : nat) (A : nat -> nat -> R) (l : R) (w : nat -> R) (i : nat) : R := rsum n (fun k => A i k * w k) - l * w i.
Definition error2 (n : nat) (A : nat -> nat -> R) (l : R) (w : nat -> R) : R := rsum n (fun i => residual n A l w i * residual n A l w i).
Definition eigenvector (n : nat) (A : nat -> nat -> R) (l : R) (w : nat -> R) : Prop :=
  forall i, (i < n)%nat -> rsum n (fun k => A i k * w k) = l * w i.
