(** What the operations on 2x2 and 3x3 matrices compute. *)
From Coq Require Import List Arith Bool Lia Ring Field.
From Verif Require Import Base BaseProofs Tensor TensorSpec TensorFixed TensorProofs.
Import ListNotations.
Set Implicit Arguments.

Section Exact.
Variable T : Type.
Variable ar : arith T.
Variable chk : bool.
Notation memory := (list (option T)).
Implicit Types h : memory.
Local Notation wrote_v h D n v r := (oks r (fun h' => vec h' D n v /\ only (vslots D n) h h')).
Local Notation wrote_m h D n m v r := (oks r (fun h' => mtx h' D n m v /\ only (mslots D n m) h h')).

Lemma vstate_vec h0 D n f h v : vdst h0 D n -> vstate h0 D n f h -> (forall i, i < n -> f i = Some (Some (v i))) -> vec h D n v.
Proof. intros Hd (O & F) E. split; [exact (proj1 Hd) |]. intros i Hi. rewrite F; auto. Qed.
Lemma mstate_mtx h0 D n m f h v : mdst h0 D n m -> mstate h0 D n m f h ->
  (forall i, i < n -> forall j, j < m -> f i j = Some (Some (v i j))) -> mtx h D n m v.
Proof. intros Hd (O & F) E. split; [exact (proj1 Hd) |]. intros i j Hi Hj. rewrite F; auto. Qed.

Ltac finish := cbv beta; let h' := fresh "h" in let S := fresh "S" in intros h' S; split;
  [ first [ eapply vstate_vec; [eassumption | exact S |] | eapply mstate_mtx; [eassumption | exact S |] ]
  | exact (proj1 S) ]; each_index; try reflexivity.
Ltac start := checks;
  match goal with
  | |- oks (andthen (assign_at (vat ?D _) _) _ ?h) _ => match goal with Hd : vdst h D _, V : vec h D _ _ |- _ => pose proof (vstate_known V) | Hd : vdst h D ?n |- _ => pose proof (vstate_start h D n) end
  | |- oks (andthen (assign_at (mat ?D _ _) _) _ ?h) _ => match goal with Hd : mdst h D _ _, V : mtx h D _ _ _ |- _ => pose proof (mstate_known V) | Hd : mdst h D ?n ?m |- _ => pose proof (mstate_start h D n m) end
  end.
Ltac straight := start; assigns; finish.

Lemma symmetricToDense2_ok h D A s : mdst h D 2 2 -> vec h A 3 s -> apart (mslots D 2 2) (vslots A 3) ->
  wrote_m h D 2 2 (dense 2 s) (symmetricToDense2 chk D A h).
Proof. intros. unfold symmetricToDense2. straight. Qed.
Lemma symmetricToDense3_ok h D A s : mdst h D 3 3 -> vec h A 6 s -> apart (mslots D 3 3) (vslots A 6) ->
  wrote_m h D 3 3 (dense 3 s) (symmetricToDense3 chk D A h).
Proof. intros. unfold symmetricToDense3. straight. Qed.
Lemma denseToSymmetric2_ok h D A x : vdst h D 3 -> mtx h A 2 2 x -> apart (vslots D 3) (mslots A 2 2) ->
  wrote_v h D 3 (fun k => nth k [x 0 0; x 1 1; x 0 1] (x 0 0)) (denseToSymmetric2 chk D A h).
Proof. intros. unfold denseToSymmetric2. straight. Qed.
Lemma denseToSymmetric3_ok h D A x : vdst h D 6 -> mtx h A 3 3 x -> apart (vslots D 6) (mslots A 3 3) ->
  wrote_v h D 6 (fun k => nth k [x 0 0; x 1 1; x 2 2; x 1 2; x 0 2; x 0 1] (x 0 0)) (denseToSymmetric3 chk D A h).
Proof. intros. unfold denseToSymmetric3. straight. Qed.

Lemma Ri_eq_symAijBj2_ok h D A s B y : vdst h D 2 -> vec h A 3 s -> vec h B 2 y ->
  apart (vslots D 2) (vslots A 3) -> apart (vslots D 2) (vslots B 2) ->
  wrote_v h D 2 (fun i => sum ar 2 (fun j => mul ar (dense 2 s i j) (y j))) (Ri_eq_symAijBj2 ar chk D A B h).
Proof. intros. unfold Ri_eq_symAijBj2. straight. Qed.
Lemma Ri_eq_symAijBj3_ok h D A s B y : vdst h D 3 -> vec h A 6 s -> vec h B 3 y ->
  apart (vslots D 3) (vslots A 6) -> apart (vslots D 3) (vslots B 3) ->
  wrote_v h D 3 (fun i => sum ar 3 (fun j => mul ar (dense 3 s i j) (y j))) (Ri_eq_symAijBj3 ar chk D A B h).
Proof. intros. unfold Ri_eq_symAijBj3. straight. Qed.
Lemma Ri_add_symAijBj2_ok h D r A s B y : vdst h D 2 -> vec h D 2 r -> vec h A 3 s -> vec h B 2 y ->
  apart (vslots D 2) (vslots A 3) -> apart (vslots D 2) (vslots B 2) ->
  wrote_v h D 2 (fun i => sum_onto ar (r i) 2 (fun j => mul ar (dense 2 s i j) (y j))) (Ri_add_symAijBj2 ar chk D A B h).
Proof. intros. unfold Ri_add_symAijBj2. straight. Qed.
Lemma Ri_add_symAijBj3_ok h D r A s B y : vdst h D 3 -> vec h D 3 r -> vec h A 6 s -> vec h B 3 y ->
  apart (vslots D 3) (vslots A 6) -> apart (vslots D 3) (vslots B 3) ->
  wrote_v h D 3 (fun i => sum_onto ar (r i) 3 (fun j => mul ar (dense 3 s i j) (y j))) (Ri_add_symAijBj3 ar chk D A B h).
Proof. intros. unfold Ri_add_symAijBj3. straight. Qed.
Lemma Rij_eq_symAikBjk2_ok h D A s B y : mdst h D 2 2 -> vec h A 3 s -> mtx h B 2 2 y ->
  apart (mslots D 2 2) (vslots A 3) -> apart (mslots D 2 2) (mslots B 2 2) ->
  wrote_m h D 2 2 (fun i j => sum ar 2 (fun k => mul ar (dense 2 s i k) (y j k))) (Rij_eq_symAikBjk2 ar chk D A B h).
Proof. intros. unfold Rij_eq_symAikBjk2. straight. Qed.
Lemma Rij_eq_symAikBjk3_ok h D A s B y : mdst h D 3 3 -> vec h A 6 s -> mtx h B 3 3 y ->
  apart (mslots D 3 3) (vslots A 6) -> apart (mslots D 3 3) (mslots B 3 3) ->
  wrote_m h D 3 3 (fun i j => sum ar 3 (fun k => mul ar (dense 3 s i k) (y j k))) (Rij_eq_symAikBjk3 ar chk D A B h).
Proof. intros. unfold Rij_eq_symAikBjk3. straight. Qed.

Lemma symRij_eq_AiAj2_ok h D A x : vdst h D 3 -> vec h A 2 x -> apart (vslots D 3) (vslots A 2) ->
  wrote_v h D 3 (fun k => mul ar (x (vrow 2 k)) (x (vcol 2 k))) (symRij_eq_AiAj2 ar chk D A h).
Proof. intros. unfold symRij_eq_AiAj2. straight. Qed.
Lemma symRij_eq_AiAj3_ok h D A x : vdst h D 6 -> vec h A 3 x -> apart (vslots D 6) (vslots A 3) ->
  wrote_v h D 6 (fun k => mul ar (x (vrow 3 k)) (x (vcol 3 k))) (symRij_eq_AiAj3 ar chk D A h).
Proof. intros. unfold symRij_eq_AiAj3. straight. Qed.

Lemma determinant2_value h A x : mtx h A 2 2 x ->
  determinant2 ar chk A h = Ok (sub ar (mul ar (x 0 0) (x 1 1)) (mul ar (x 0 1) (x 1 0))).
Proof. intros V. unfold determinant2. checks. evals. Qed.
Lemma symDeterminant2_value h A s : vec h A 3 s ->
  symDeterminant2 ar chk A h = Ok (sub ar (mul ar (s 0) (s 1)) (mul ar (s 2) (s 2))).
Proof. intros V. unfold symDeterminant2. checks. evals. Qed.
End Exact.

Section RingLaws.
Variable T : Type.
Variable ar : arith T.
Variable chk : bool.
Hypothesis Rth : ring_theory (zero ar) (one ar) (add ar) (mul ar) (sub ar) (opp ar) eq.
Add Ring tensor_ring : Rth.
Notation memory := (list (option T)).
Implicit Types h : memory.
Local Notation wrote_v h D n v r := (oks r (fun h' => vec h' D n v /\ only (vslots D n) h h')).
Local Notation wrote_m h D n m v r := (oks r (fun h' => mtx h' D n m v /\ only (mslots D n m) h h')).
Ltac finish := cbv beta; let h' := fresh "h" in let S := fresh "S" in intros h' S; split;
  [ first [ eapply vstate_vec; [eassumption | exact S |] | eapply mstate_mtx; [eassumption | exact S |] ]
  | exact (proj1 S) ]; each_index; try reflexivity.
Ltac start := checks;
  match goal with
  | |- oks (andthen (assign_at (vat ?D _) _) _ ?h) _ => match goal with Hd : vdst h D _, V : vec h D _ _ |- _ => pose proof (vstate_known V) | Hd : vdst h D ?n |- _ => pose proof (vstate_start h D n) end
  | |- oks (andthen (assign_at (mat ?D _ _) _) _ ?h) _ => match goal with Hd : mdst h D _ _, V : mtx h D _ _ _ |- _ => pose proof (mstate_known V) | Hd : mdst h D ?n ?m |- _ => pose proof (mstate_start h D n m) end
  end.
Ltac straight := start; assigns; finish.
Ltac same := unfold sum, total, dense, voigt, vrow, vcol;
  cbn -[add mul sub opp zero one]; match goal with |- Some (Some ?a) = Some (Some ?b) => cut (a = b); [intros ->; reflexivity | ring] end.

Lemma Rij_eq_AikSymBklAjl2_ok h D A x B s : vdst h D 3 -> mtx h A 2 2 x -> vec h B 3 s ->
  apart (vslots D 3) (mslots A 2 2) -> apart (vslots D 3) (vslots B 3) ->
  wrote_v h D 3 (fun p => sum ar 2 (fun k => sum ar 2 (fun l => mul ar (mul ar (x (vrow 2 p) k) (dense 2 s k l)) (x (vcol 2 p) l))))
    (Rij_eq_AikSymBklAjl2 ar chk D A B h).
Proof. intros. unfold Rij_eq_AikSymBklAjl2. straight; same. Qed.
Lemma Rij_eq_AikSymBklAjl3_ok h D A x B s : vdst h D 6 -> mtx h A 3 3 x -> vec h B 6 s ->
  apart (vslots D 6) (mslots A 3 3) -> apart (vslots D 6) (vslots B 6) ->
  wrote_v h D 6 (fun p => sum ar 3 (fun k => sum ar 3 (fun l => mul ar (mul ar (x (vrow 3 p) k) (dense 3 s k l)) (x (vcol 3 p) l))))
    (Rij_eq_AikSymBklAjl3 ar chk D A B h).
Proof. intros. unfold Rij_eq_AikSymBklAjl3, AikSymBklAjl. straight; same. Qed.
Lemma symRij_eq_AiBj_plus_AjBi2_ok h D A x B y : vdst h D 3 -> vec h A 2 x -> vec h B 2 y ->
  apart (vslots D 3) (vslots A 2) -> apart (vslots D 3) (vslots B 2) ->
  wrote_v h D 3 (fun p => add ar (mul ar (x (vrow 2 p)) (y (vcol 2 p))) (mul ar (x (vcol 2 p)) (y (vrow 2 p))))
    (symRij_eq_AiBj_plus_AjBi2 ar chk D A B h).
Proof. intros. unfold symRij_eq_AiBj_plus_AjBi2, two. straight; same. Qed.
Lemma symRij_eq_AiBj_plus_AjBi3_ok h D A x B y : vdst h D 6 -> vec h A 3 x -> vec h B 3 y ->
  apart (vslots D 6) (vslots A 3) -> apart (vslots D 6) (vslots B 3) ->
  wrote_v h D 6 (fun p => add ar (mul ar (x (vrow 3 p)) (y (vcol 3 p))) (mul ar (x (vcol 3 p)) (y (vrow 3 p))))
    (symRij_eq_AiBj_plus_AjBi3 ar chk D A B h).
Proof. intros. unfold symRij_eq_AiBj_plus_AjBi3, two. straight; same. Qed.

Ltac spelled := unfold leibniz, sum, total, product, dense, two; cbn -[add mul sub opp zero one]; ring.
Lemma determinant2_ok h A x : mtx h A 2 2 x -> determinant2 ar chk A h = Ok (leibniz ar 2 x).
Proof. intros V. rewrite (determinant2_value _ _ V). apply f_equal. spelled. Qed.
Lemma determinant3_ok h A x : mtx h A 3 3 x -> determinant3 ar chk A h = Ok (leibniz ar 3 x).
Proof. intros V. unfold determinant3. checks. etransitivity; [evals |]. apply f_equal. spelled. Qed.
Lemma symDeterminant2_ok h A s : vec h A 3 s -> symDeterminant2 ar chk A h = Ok (leibniz ar 2 (dense 2 s)).
Proof. intros V. rewrite (symDeterminant2_value _ _ V). apply f_equal. spelled. Qed.
Lemma symDeterminant3_ok h A s : vec h A 6 s -> symDeterminant3 ar chk A h = Ok (leibniz ar 3 (dense 3 s)).
Proof. intros V. unfold symDeterminant3. checks. etransitivity; [evals |]. apply f_equal. spelled. Qed.

Lemma leibniz2_mul x y : leibniz ar 2 (fun i j => sum ar 2 (fun k => mul ar (x i k) (y k j))) = mul ar (leibniz ar 2 x) (leibniz ar 2 y).
Proof. spelled. Qed.
Lemma leibniz3_mul x y : leibniz ar 3 (fun i j => sum ar 3 (fun k => mul ar (x i k) (y k j))) = mul ar (leibniz ar 3 x) (leibniz ar 3 y).
Proof. spelled. Qed.
Lemma leibniz2_transpose x : leibniz ar 2 (fun i j => x j i) = leibniz ar 2 x.
Proof. spelled. Qed.
Lemma leibniz3_transpose x : leibniz ar 3 (fun i j => x j i) = leibniz ar 3 x.
Proof. spelled. Qed.
End RingLaws.

(** * Inverses *)
Section Inverse.
Variable T : Type.
Variable ar : arith T.
Variable inv : T -> T.
Variable chk : bool.
Hypothesis Fth : field_theory (zero ar) (one ar) (add ar) (mul ar) (sub ar) (opp ar) (div ar) inv eq.
Add Field tensor_field : Fth.
Notation memory := (list (option T)).
Implicit Types h : memory.
Ltac start := checks;
  match goal with
  | |- oks (bind (andthen (assign_at (vat ?D _) _) _ ?h) _) _ => match goal with Hd : vdst h D _, V : vec h D _ _ |- _ => pose proof (vstate_known V) | Hd : vdst h D ?n |- _ => pose proof (vstate_start h D n) end
  | |- oks (bind (andthen (assign_at (mat ?D _ _) _) _ ?h) _) _ => match goal with Hd : mdst h D _ _, V : mtx h D _ _ _ |- _ => pose proof (mstate_known V) | Hd : mdst h D ?n ?m |- _ => pose proof (mstate_start h D n m) end
  end.
Ltac block := eapply oks_bind; [assigns; let h' := fresh "h" in let S := fresh "S" in intros h' S; exact S |].
Ltac holds := first [ eapply vstate_vec; [eassumption | eassumption |] | eapply mstate_mtx; [eassumption | eassumption |] ]; each_index.
Ltac ffield := match goal with |- ?l = Some (Some ?b) =>
  unfold sum, total, dense, voigt; cbn -[add mul sub opp zero one div leibniz] end;
  match goal with |- Some (Some ?a) = Some (Some ?b) => cut (a = b); [intros Eab; apply f_equal, f_equal, Eab |] end.

(** The entries of the inverse by Cramer's rule. *)
Definition inverse2 (x : nat -> nat -> T) (i j : nat) : T :=
  let d := leibniz ar 2 x in
  let c := mul ar (x (1 - j) (1 - i)) (div ar (one ar) d) in
  if i =? j then c else opp ar c.
Definition cofactor3 (x : nat -> nat -> T) (i j : nat) : T :=
  let i1 := (i + 1) mod 3 in let i2 := (i + 2) mod 3 in let j1 := (j + 1) mod 3 in let j2 := (j + 2) mod 3 in
  sub ar (mul ar (x i1 j1) (x i2 j2)) (mul ar (x i1 j2) (x i2 j1)).
Definition inverse3 (x : nat -> nat -> T) (i j : nat) : T :=
  mul ar (cofactor3 x j i) (div ar (one ar) (leibniz ar 3 x)).

Lemma inverse2_ok x : leibniz ar 2 x <> zero ar -> inverses ar 2 x (inverse2 x).
Proof.
  intros N. split; unfold identity; each_index; unfold inverse2, sum, total, kronecker; cbn -[add mul sub opp zero one div leibniz];
  (assert (E : leibniz ar 2 x = sub ar (mul ar (x 0 0) (x 1 1)) (mul ar (x 0 1) (x 1 0)))
     by (unfold leibniz, total, product; cbn -[add mul sub opp zero one]; ring); rewrite E in *; field; auto).
Qed.
Lemma inverse3_ok x : leibniz ar 3 x <> zero ar -> inverses ar 3 x (inverse3 x).
Proof.
  intros N. 
  assert (E : leibniz ar 3 x = add ar (add ar (mul ar (x 0 0) (cofactor3 x 0 0)) (mul ar (x 1 0) (cofactor3 x 1 0))) (mul ar (x 2 0) (cofactor3 x 2 0)))
     by (unfold leibniz, total, product, cofactor3; cbn -[add mul sub opp zero one]; ring).
  split; unfold identity; each_index; unfold inverse3, sum, total, kronecker; cbn -[add mul sub opp zero one div leibniz cofactor3];
  rewrite E in *; unfold cofactor3 in *; cbn -[add mul sub opp zero one div leibniz] in *; field; auto.
Qed.

Lemma invert2_ok h D A x : mdst h D 2 2 -> mtx h A 2 2 x -> apart (mslots D 2 2) (mslots A 2 2) ->
  oks (invert2 ar chk D A h) (fun '(h', d) => d = leibniz ar 2 x /\ mtx h' D 2 2 (inverse2 x) /\ only (mslots D 2 2) h h').
Proof.
  intros Hd V P. unfold invert2. checks. rewrite (determinant2_ok ar chk (F_R Fth) V). cbn [bind].
  start. block. intros h' S. apply oks_ok. split; [reflexivity | split; [| exact (proj1 S)]].
  holds; unfold inverse2; ffield; ring.
Qed.
Lemma invert2_in_place_ok h D x : mdst h D 2 2 -> mtx h D 2 2 x ->
  oks (invert2_in_place ar chk D h) (fun '(h', d) => d = leibniz ar 2 x /\ mtx h' D 2 2 (inverse2 x) /\ only (mslots D 2 2) h h').
Proof.
  intros Hd V. unfold invert2_in_place. checks. rewrite (determinant2_ok ar chk (F_R Fth) V). cbn [bind].
  erewrite mtx_at by (eauto; lia). cbn [bind].
  start. block. intros h' S. apply oks_ok. split; [reflexivity | split; [| exact (proj1 S)]].
  holds; unfold inverse2; ffield; ring.
Qed.
Lemma symInvert2_ok h D A s : vdst h D 3 -> vec h A 3 s -> apart (vslots D 3) (vslots A 3) ->
  oks (symInvert2 ar chk D A h) (fun '(h', d) => d = leibniz ar 2 (dense 2 s) /\
    vec h' D 3 (fun k => inverse2 (dense 2 s) (vrow 2 k) (vcol 2 k)) /\ only (vslots D 3) h h').
Proof.
  intros Hd V P. unfold symInvert2. checks. rewrite (symDeterminant2_ok ar chk (F_R Fth) V). cbn [bind].
  start. block. intros h' S. apply oks_ok. split; [reflexivity | split; [| exact (proj1 S)]].
  holds; unfold inverse2; ffield; ring.
Qed.
Lemma symInvert2_in_place_ok h D s : vdst h D 3 -> vec h D 3 s ->
  oks (symInvert2_in_place ar chk D h) (fun '(h', d) => d = leibniz ar 2 (dense 2 s) /\
    vec h' D 3 (fun k => inverse2 (dense 2 s) (vrow 2 k) (vcol 2 k)) /\ only (vslots D 3) h h').
Proof.
  intros Hd V. unfold symInvert2_in_place. checks. rewrite (symDeterminant2_ok ar chk (F_R Fth) V). cbn [bind].
  erewrite vec_at by (eauto; lia). cbn [bind].
  start. block. intros h' S. apply oks_ok. split; [reflexivity | split; [| exact (proj1 S)]].
  holds; unfold inverse2; ffield; ring.
Qed.

Ltac reading := eapply oks_bind; [apply oks_eq; evals | cbv beta; intros ? ->].
Lemma leibniz3_cofactors x : leibniz ar 3 x =
  add ar (add ar (mul ar (x 0 0) (cofactor3 x 0 0)) (mul ar (x 1 0) (cofactor3 x 1 0))) (mul ar (x 2 0) (cofactor3 x 2 0)).
Proof. unfold leibniz, total, product, cofactor3; cbn -[add mul sub opp zero one]; ring. Qed.
Lemma invert3_ok h D A x : mdst h D 3 3 -> mtx h A 3 3 x -> apart (mslots D 3 3) (mslots A 3 3) ->
  oks (invert3 ar chk D A h) (fun '(h', d) => d = leibniz ar 3 x /\ mtx h' D 3 3 (inverse3 x) /\ only (mslots D 3 3) h h').
Proof.
  intros Hd V P. unfold invert3. start. block. intros h1 S1. cbv zeta beta.
  eapply oks_bind; [apply oks_eq; evals |]. cbv beta. intros det E.
  assert (Ed : det = leibniz ar 3 x) by (rewrite leibniz3_cofactors, E; unfold cofactor3; cbn -[add mul sub opp zero one]; ring).
  clear E. block. intros h' S. apply oks_ok. split; [exact Ed | split; [| exact (proj1 S)]].
  rewrite Ed in *. holds; unfold inverse3, cofactor3; ffield; ring.
Qed.
Lemma symInvert3_ok h D A s : vdst h D 6 -> vec h A 6 s -> apart (vslots D 6) (vslots A 6) ->
  oks (symInvert3 ar chk D A h) (fun '(h', d) => d = leibniz ar 3 (dense 3 s) /\
    vec h' D 6 (fun k => inverse3 (dense 3 s) (vrow 3 k) (vcol 3 k)) /\ only (vslots D 6) h h').
Proof.
  intros Hd V P. unfold symInvert3. start. block. intros h1 S1. cbv zeta beta.
  eapply oks_bind; [apply oks_eq; evals |]. cbv beta. intros det E.
  assert (Ed : det = leibniz ar 3 (dense 3 s)) by (rewrite leibniz3_cofactors, E; unfold cofactor3, dense; cbn -[add mul sub opp zero one]; ring).
  clear E. block. intros h' S. apply oks_ok. split; [exact Ed | split; [| exact (proj1 S)]].
  rewrite Ed in *. holds; unfold inverse3, cofactor3; ffield; ring.
Qed.

(** Local variables after the memory of the caller. *)
Lemma vec_grow h g A n (x : nat -> T) : vec h A n x -> vec (h ++ g) A n x.
Proof. intros (L & V). split; [auto |]. intros i Hi. rewrite nth_error_app1; auto. eapply slot_lt; eauto. Qed.
Lemma mtx_grow h g A n m (x : nat -> nat -> T) : mtx h A n m x -> mtx (h ++ g) A n m x.
Proof. intros (L & V). split; [auto |]. intros i j Hi Hj. rewrite nth_error_app1; auto. eapply slot_lt; eauto. Qed.
Lemma vdst_grow h g A n : vdst h A n -> vdst (h ++ g) A n.
Proof. intros (L & R & J). split; [auto | split; auto]. intros i Hi. rewrite app_length. specialize (R i Hi). lia. Qed.
Lemma mdst_grow h g A n m : mdst h A n m -> mdst (h ++ g) A n m.
Proof. intros (L & R & J). split; [auto | split; auto]. intros i j Hi Hj. rewrite app_length. specialize (R i j Hi Hj). lia. Qed.
Lemma carray_dst h n : vdst (h ++ repeat None n) (carray (length h) n) n.
Proof.
  split; [auto | split; cbn].
  - intros i Hi. rewrite app_length, repeat_length. lia.
  - intros; lia.
Qed.
Lemma cmatrix_dst h n m : mdst (h ++ repeat None (n * m)) (cmatrix (length h) n m) n m.
Proof.
  split; [auto | split; cbn].
  - intros i j Hi Hj. rewrite app_length, repeat_length. nia.
  - intros i j k l Hi Hj Hk Hl E. assert (E' : i * m + j = k * m + l) by lia.
    assert (i = k) by (destruct (Nat.lt_trichotomy i k) as [? | [? | ?]]; [| assumption |]; exfalso; nia). subst k. lia.
Qed.
Lemma only_cut (P : nat -> Prop) h h' n : only (fun s => P s \/ length h <= s) (h ++ repeat None n) h' -> only P h (firstn (length h) h').
Proof.
  intros (L & A). rewrite app_length, repeat_length in L.
  assert (Lf : length (firstn (length h) h') = length h) by (rewrite firstn_length; lia).
  split; [auto |]. intros s N. destruct (Nat.lt_ge_cases s (length h)) as [Lt | Ge].
  - transitivity (nth_error h' s). 2:{ rewrite A by (intros [|]; [auto | lia]). now rewrite nth_error_app1. }
    rewrite <- (firstn_skipn (length h) h') at 2. rewrite nth_error_app1; auto. lia.
  - rewrite (proj2 (nth_error_None h s)) by lia. apply nth_error_None. lia.
Qed.
Lemma vec_cut h h' D n (v : nat -> T) m : vdst h D n -> length h' = length h + m -> vec h' D n v -> vec (firstn (length h) h') D n v.
Proof.
  intros (L & R & J) Lh (_ & V). split; [auto |]. intros i Hi. specialize (R i Hi). rewrite <- (V i Hi).
  rewrite <- (firstn_skipn (length h) h') at 2. rewrite nth_error_app1; auto. rewrite firstn_length; lia.
Qed.
Lemma mtx_cut h h' D n k (v : nat -> nat -> T) m : mdst h D n k -> length h' = length h + m -> mtx h' D n k v -> mtx (firstn (length h) h') D n k v.
Proof.
  intros (L & R & J) Lh (_ & V). split; [auto |]. intros i j Hi Hj. specialize (R i j Hi Hj). rewrite <- (V i j Hi Hj).
  rewrite <- (firstn_skipn (length h) h') at 2. rewrite nth_error_app1; auto. rewrite firstn_length; lia.
Qed.

Lemma symInvert3_in_place_ok h D s : vdst h D 6 -> vec h D 6 s ->
  oks (symInvert3_in_place ar chk D h) (fun '(h', d) => d = leibniz ar 3 (dense 3 s) /\
    vec h' D 6 (fun k => inverse3 (dense 3 s) (vrow 3 k) (vcol 3 k)) /\ only (vslots D 6) h h').
Proof.
  intros Hd V. unfold symInvert3_in_place, with_local.
  assert (Pt : apart (vslots (carray (length h) 6) 6) (vslots D 6)).
  { intros a (i & Hi & <-) (j & Hj & E). pose proof (proj1 (proj2 Hd) j Hj). cbn in E. lia. }
  eapply oks_bind with (P := fun '(h2, d) => d = leibniz ar 3 (dense 3 s) /\ vec h2 D 6 (fun k => inverse3 (dense 3 s) (vrow 3 k) (vcol 3 k)) /\
    only (fun a => vslots D 6 a \/ length h <= a) (h ++ repeat None 6) h2).
  - eapply oks_bind.
    + apply symInvert3_ok; [apply (carray_dst h 6) | apply vec_grow; exact V | exact Pt].
    + intros [h1 det] (-> & W & O). eapply oks_bind.
      * eapply copy_ok with (n := 6); [| exact W |].
        { destruct (vdst_grow (repeat None 6) Hd) as (L & R & J). split; [auto | split; auto]. intros i Hi. rewrite (proj1 O). auto. }
        intros a Ha Ha'. exact (Pt a Ha' Ha).
      * intros h2 (W2 & O2). apply oks_ok. split; [reflexivity | split; [exact W2 |]].
        eapply only_trans; [eapply only_more; [exact O |] | eapply only_more; [exact O2 |]]; auto.
        intros a (i & Hi & <-). right. cbn. lia.
  - intros [h2 det] (E & W2 & OO). apply oks_ok. split; [exact E |].
    split; [eapply vec_cut with (m := 6); eauto |].
    + rewrite (proj1 OO), app_length. reflexivity.
    + eapply only_cut; eauto.
Qed.
Lemma invert3_in_place_ok h D x : mdst h D 3 3 -> mtx h D 3 3 x ->
  oks (invert3_in_place ar D h) (fun '(h', d) => d = leibniz ar 3 x /\ mtx h' D 3 3 (inverse3 x) /\ only (mslots D 3 3) h h').
Proof.
  intros Hd V. unfold invert3_in_place, with_local.
  set (t := cmatrix (length h) 3 3).
  assert (Pt : apart (mslots t 3 3) (mslots D 3 3)).
  { intros a (i & j & Hi & Hj & <-) (k & l & Hk & Hl & E). pose proof (proj1 (proj2 Hd) k l Hk Hl). cbn in E. lia. }
  pose proof (mtx_grow (repeat None 9) V) as V0. pose proof (mdst_grow (repeat None 9) Hd) as Hd0. set (h0 := h ++ repeat None 9) in *.
  assert (Ht : mdst h0 t 3 3) by apply (cmatrix_dst h 3 3).
  eapply oks_bind with (P := fun '(h2, d) => d = leibniz ar 3 x /\ mtx h2 D 3 3 (inverse3 x) /\
    only (fun a => mslots D 3 3 a \/ length h <= a) h0 h2).
  - pose proof (mstate_start h0 t 3 3). block. intros h1 S1. cbv zeta beta.
    eapply oks_bind; [apply oks_eq; evals |]. cbv beta. intros det E.
    assert (Ed : det = leibniz ar 3 x) by (rewrite leibniz3_cofactors, E; unfold cofactor3; cbn -[add mul sub opp zero one]; ring).
    clear E. rewrite Ed. clear det Ed.
    assert (W : mtx h1 t 3 3 (fun i j => cofactor3 x j i)).
    { eapply mstate_mtx; [exact Ht | exact S1 |]. each_index; unfold cofactor3; ffield; ring. }
    assert (V1 : mtx h1 D 3 3 x) by (eapply only_mtx; [exact (proj1 S1) | exact Pt | exact V0]).
    assert (Hd1 : mdst h1 D 3 3).
    { destruct Hd0 as (L & R & J). split; [auto | split; auto]. intros i j Hi Hj. rewrite (proj1 (proj1 S1)). auto. }
    eapply oks_bind.
    + apply mop with (D := D) (v := inverse3 x); [exact Hd1 |]. intros i j h2 Sn.
      pose proof (mseen_only Sn) as O. pose proof (proj1 Sn) as [Hi Hj]. apply assign_ok; [| exact (mseen_lt Sn Hd1)].
      eapply bin_ok; [| apply lit_ok]. eapply mtx_at with (n := 3) (m := 3) (x := fun i j => cofactor3 x j i); [| exact Hi | exact Hj].
      eapply only_mtx; [exact O | | exact W]. intros a Ha Ha'. exact (Pt a Ha' Ha).
    + intros h2 (W2 & O2). apply oks_ok. split; [reflexivity | split; [exact W2 |]].
      eapply only_trans; [eapply only_more; [exact (proj1 S1) |] | eapply only_more; [exact O2 |]]; auto.
      intros a (i & j & Hi & Hj & <-). right. cbn. lia.
  - intros [h2 det] (E & W2 & OO). apply oks_ok. split; [exact E |].
    split; [eapply mtx_cut with (m := 9); eauto |].
    + rewrite (proj1 OO). unfold h0. rewrite app_length. reflexivity.
    + eapply only_cut; eauto.
Qed.
End Inverse.
