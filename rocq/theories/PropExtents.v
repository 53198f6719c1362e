(** Property C61: with LVARRAY_BOUNDS_CHECK an operation of tensorOps whose operands do not have the extents it is
    instantiated for stops the program before anything is read or written, whatever the memory holds. *)
From Coq Require Import List Arith ZArith Lia Bool.
From Verif Require Import Base Tensor TensorFixed Eigen.
Import ListNotations.

Section Any.
Variable T : Type.
Variable ar : arith T.
Variable fl : floating T.

Definition stops {A} (r : outcome A) (right_extents : Prop) : Prop := ~ right_extents -> r = Abort.
Definition vec_of (a : vref) (n : nat) : Prop := vlen a = n.
Definition mat_of (a : mref) (n m : nat) : Prop := mrows a = n /\ mcols a = m.

Ltac run := repeat (match goal with |- context [?a =? ?b] => destruct (Nat.eqb_spec a b) end; [| reflexivity]; cbn [negb bind andb]).

Theorem C61_elementwise : forall h n m (d a b : vref) (D A : mref) (s : T),
  stops (fill true n d s h) (vec_of d n) /\
  stops (copy true n d a h) (vec_of d n /\ vec_of a n) /\
  stops (scale ar true n d s h) (vec_of d n) /\
  stops (scaledCopy ar true n d a s h) (vec_of d n /\ vec_of a n) /\
  stops (addScalar ar true n d s h) (vec_of d n) /\
  stops (addV ar true n d a h) (vec_of d n /\ vec_of a n) /\
  stops (subtract ar true n d a h) (vec_of d n /\ vec_of a n) /\
  stops (scaledAdd ar true n d a s h) (vec_of d n /\ vec_of a n) /\
  stops (hadamardProduct ar true n d a b h) (vec_of d n /\ vec_of a n /\ vec_of b n) /\
  stops (crossProduct ar true d a b h) (vec_of d 3 /\ vec_of a 3 /\ vec_of b 3) /\
  stops (fillM true n m D s h) (mat_of D n m) /\
  stops (copyM true n m D A h) (mat_of D n m /\ mat_of A n m) /\
  stops (scaleM ar true n m D s h) (mat_of D n m) /\
  stops (scaledCopyM ar true n m D A s h) (mat_of D n m /\ mat_of A n m) /\
  stops (addM ar true n m D A h) (mat_of D n m /\ mat_of A n m) /\
  stops (scaledAddM ar true n m D A s h) (mat_of D n m /\ mat_of A n m) /\
  stops (transpose true n m D A h) (mat_of D n m /\ mat_of A m n) /\
  stops (transpose_in_place true n D h) (mat_of D n n) /\
  stops (addIdentity ar true n D s h) (mat_of D n n) /\
  stops (trace ar true n D h) (mat_of D n n) /\
  stops (symAddIdentity ar true n d s h) (vec_of d (n * (n + 1) / 2)) /\
  stops (symTrace ar true n d h) (vec_of d (n * (n + 1) / 2)).
Proof.
  intros. unfold stops, vec_of, mat_of.
  repeat split; intros N;
  unfold fill, copy, scale, scaledCopy, addScalar, addV, subtract, scaledAdd, hadamardProduct, crossProduct, fillM, copyM, scaleM,
    scaledCopyM, addM, scaledAddM, transpose, transpose_in_place, addIdentity, trace, symAddIdentity, symTrace, check1, check2, check_if, error_if, SYM_SIZE;
  run; exfalso; apply N; auto.
Qed.
Theorem C61_norms : forall h n (a : vref) (f : T -> T) (g : T -> T -> T),
  stops (maxAbsoluteEntry true f g n a h) (vec_of a n) /\
  stops (l2NormSquared ar true n a h) (vec_of a n) /\
  stops (l2Norm ar true f n a h) (vec_of a n) /\
  stops (normalize ar true f n a h) (vec_of a n).
Proof.
  intros. unfold stops, vec_of, mat_of.
  repeat split; intros N; unfold maxAbsoluteEntry, l2Norm, l2NormSquared, normalize, check1, check_if, error_if;
  run; exfalso; apply N; auto.
Qed.
Theorem C61_square : forall h (d a b : vref) (D A : mref),
  stops (determinant2 ar true A h) (mat_of A 2 2) /\
  stops (invert2 ar true D A h) (mat_of D 2 2 /\ mat_of A 2 2) /\
  stops (invert2_in_place ar true A h) (mat_of A 2 2) /\
  stops (symDeterminant2 ar true a h) (vec_of a 3) /\
  stops (symInvert2 ar true d a h) (vec_of d 3 /\ vec_of a 3) /\
  stops (symInvert2_in_place ar true a h) (vec_of a 3) /\
  stops (Ri_eq_symAijBj2 ar true d a b h) (vec_of d 2 /\ vec_of a 3 /\ vec_of b 2) /\
  stops (Ri_add_symAijBj2 ar true d a b h) (vec_of d 2 /\ vec_of a 3 /\ vec_of b 2) /\
  stops (Rij_eq_symAikBjk2 ar true D a A h) (mat_of D 2 2 /\ vec_of a 3 /\ mat_of A 2 2) /\
  stops (Rij_eq_AikSymBklAjl2 ar true d A b h) (vec_of d 3 /\ mat_of A 2 2 /\ vec_of b 3) /\
  stops (symRij_eq_AiAj2 ar true d a h) (vec_of d 3 /\ vec_of a 2) /\
  stops (symRij_eq_AiBj_plus_AjBi2 ar true d a b h) (vec_of d 3 /\ vec_of a 2 /\ vec_of b 2) /\
  stops (denseToSymmetric2 true d A h) (vec_of d 3 /\ mat_of A 2 2) /\
  stops (symmetricToDense2 true D a h) (mat_of D 2 2 /\ vec_of a 3) /\
  stops (determinant3 ar true A h) (mat_of A 3 3) /\
  stops (invert3 ar true D A h) (mat_of D 3 3 /\ mat_of A 3 3) /\
  stops (symDeterminant3 ar true a h) (vec_of a 6) /\
  stops (symInvert3 ar true d a h) (vec_of d 6 /\ vec_of a 6) /\
  stops (symInvert3_in_place ar true a h) (vec_of a 6) /\
  stops (Ri_eq_symAijBj3 ar true d a b h) (vec_of d 3 /\ vec_of a 6 /\ vec_of b 3) /\
  stops (Ri_add_symAijBj3 ar true d a b h) (vec_of d 3 /\ vec_of a 6 /\ vec_of b 3) /\
  stops (Rij_eq_symAikBjk3 ar true D a A h) (mat_of D 3 3 /\ vec_of a 6 /\ mat_of A 3 3) /\
  stops (Rij_eq_AikSymBklAjl3 ar true d A b h) (vec_of d 6 /\ mat_of A 3 3 /\ vec_of b 6) /\
  stops (symRij_eq_AiAj3 ar true d a h) (vec_of d 6 /\ vec_of a 3) /\
  stops (symRij_eq_AiBj_plus_AjBi3 ar true d a b h) (vec_of d 6 /\ vec_of a 3 /\ vec_of b 3) /\
  stops (denseToSymmetric3 true d A h) (vec_of d 6 /\ mat_of A 3 3) /\
  stops (symmetricToDense3 true D a h) (mat_of D 3 3 /\ vec_of a 6).
Proof.
  intros. unfold stops, vec_of, mat_of.
  repeat split; intros N;
  unfold determinant2, invert2, invert2_in_place, symDeterminant2, symInvert2, symInvert2_in_place, Ri_eq_symAijBj2, Ri_add_symAijBj2,
    Rij_eq_symAikBjk2, Rij_eq_AikSymBklAjl2, symRij_eq_AiAj2, symRij_eq_AiBj_plus_AjBi2, denseToSymmetric2, symmetricToDense2,
    determinant3, invert3, symDeterminant3, symInvert3_in_place, with_local, symInvert3, Ri_eq_symAijBj3, Ri_add_symAijBj3, Rij_eq_symAikBjk3,
    Rij_eq_AikSymBklAjl3, symRij_eq_AiAj3, symRij_eq_AiBj_plus_AjBi3, denseToSymmetric3, symmetricToDense3, check1, check2, check_if, error_if;
  run; exfalso; apply N; auto.
Qed.
Theorem C61_eigen : forall h (v s : vref) (M : mref),
  stops (symEigenvalues2 ar fl true v s h) (vec_of v 2 /\ vec_of s 3) /\
  stops (symEigenvectors2 ar fl true v M s h) (vec_of v 2 /\ mat_of M 2 2 /\ vec_of s 3) /\
  stops (symEigenvalues3 ar fl true v s h) (vec_of v 3 /\ vec_of s 6) /\
  stops (symEigenvectors3 ar fl true v M s h) (vec_of v 3 /\ mat_of M 3 3 /\ vec_of s 6).
Proof.
  intros. unfold stops, vec_of, mat_of.
  repeat split; intros N; unfold symEigenvalues2, symEigenvectors2, symEigenvalues3, symEigenvectors3, check1, check2, check_if, error_if;
  run; exfalso; apply N; auto.
Qed.
End Any.
Print Assumptions C61_elementwise.
Print Assumptions C61_norms.
Print Assumptions C61_square.
Print Assumptions C61_eigen.

(** C61: the exception. invert< 3 >( matrix ), the one with a single operand, runs on operands of other extents: here on the 3 x 4
    matrix ( 1 0 0 9 / 0 1 0 9 / 0 0 1 9 ). *)
Definition whole_numbers : arith Z := Arith 0%Z 1%Z Z.add Z.sub Z.mul Z.div Z.opp.
Theorem C61_invert3_refuted : exists (h h' : list (option Z)) (A : mref) det,
  ~ mat_of A 3 3 /\ invert3_in_place whole_numbers A h = Ok (h', det).
Proof.
  exists (map Some [1; 0; 0; 9; 0; 1; 0; 9; 0; 0; 1; 9]%Z), (map Some [1; 0; 0; 9; 0; 1; 0; 9; 0; 0; 1; 9]%Z), (cmatrix 0 3 4), 1%Z.
  split; [intros [_ E]; discriminate E|]. vm_compute. reflexivity.
Qed.
Print Assumptions C61_invert3_refuted.
Example C61_case :
  copy true 2 (carray 0 2) (carray 2 3) (map Some [1; 2; 3; 4; 5]%Z) = Abort /\
  copy true 2 (carray 0 2) (carray 2 2) (map Some [1; 2; 3; 4; 5]%Z) = Ok (map Some [3; 4; 3; 4; 5]%Z).
Proof. vm_compute. split; reflexivity. Qed.
