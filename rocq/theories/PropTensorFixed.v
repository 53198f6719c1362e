(** Properties C46, C47, C49 and C50: determinants, inverses, symmetric storage and the cross product. *)
From Coq Require Import List Arith Bool Lia Ring Field ZArith InitialRing.
From Coq Require QArith Qcanon.
From Verif Require Import Base BaseProofs Tensor TensorSpec TensorFixed TensorProofs TensorFixedProofs TensorLaws.
Import ListNotations.
Set Implicit Arguments.
Local Open Scope nat_scope.

Ltac cases i := destruct i as [| [| [| [| [| [| i]]]]]]; try (exfalso; lia).

Section OverRing.
Variable T : Type.
Variable ar : arith T.
Notation memory := (list (option T)).
Notation "x + y" := (add ar x y).
Notation "x * y" := (mul ar x y).
Definition commutative_ring : Prop := ring_theory (zero ar) (one ar) (add ar) (mul ar) (sub ar) (opp ar) eq.

(** C47: the determinant is the signed sum over all permutations, the symmetric determinant is that of the dense matrix. *)
Theorem C47_determinant : commutative_ring -> forall chk (h : memory),
  (forall A x, mtx h A 2 2 x -> determinant2 ar chk A h = Ok (leibniz ar 2 x)) /\
  (forall A x, mtx h A 3 3 x -> determinant3 ar chk A h = Ok (leibniz ar 3 x)) /\
  (forall A s, vec h A 3 s -> symDeterminant2 ar chk A h = Ok (leibniz ar 2 (dense 2 s))) /\
  (forall A s, vec h A 6 s -> symDeterminant3 ar chk A h = Ok (leibniz ar 3 (dense 3 s))).
Proof.
  intros R chk h. split; [| split; [| split]]; intros;
  [apply determinant2_ok | apply determinant3_ok | apply symDeterminant2_ok | apply symDeterminant3_ok]; auto.
Qed.
Theorem C47_multiplicative : commutative_ring -> forall chk (h : memory) (A B D : mref) x y,
  (disjoint [mslots A 2 2; mslots B 2 2; mslots D 2 2] -> mtx h A 2 2 x -> mtx h B 2 2 y -> mdst h D 2 2 ->
   exists h' a b, Rij_eq_AikBkj ar chk 2 2 2 D A B h = Ok h' /\
     determinant2 ar chk A h' = Ok a /\ determinant2 ar chk B h' = Ok b /\ determinant2 ar chk D h' = Ok (a * b)) /\
  (disjoint [mslots A 3 3; mslots B 3 3; mslots D 3 3] -> mtx h A 3 3 x -> mtx h B 3 3 y -> mdst h D 3 3 ->
   exists h' a b, Rij_eq_AikBkj ar chk 3 3 3 D A B h = Ok h' /\
     determinant3 ar chk A h' = Ok a /\ determinant3 ar chk B h' = Ok b /\ determinant3 ar chk D h' = Ok (a * b)).
Proof.
  intros R chk h A B D x y. assert (0 < 2) by lia. assert (0 < 3) by lia. split; intros; pairs;
  [ destruct (@Rij_eq_AikBkj_ok T ar chk h 2 2 2 D A x B y) as (h' & E & V & O)
  | destruct (@Rij_eq_AikBkj_ok T ar chk h 3 3 3 D A x B y) as (h' & E & V & O) ]; try kept; exists h'.
  - exists (leibniz ar 2 x), (leibniz ar 2 y). split; [exact E |].
    split; [apply determinant2_ok; [exact R | kept] | split; [apply determinant2_ok; [exact R | kept] |]].
    rewrite <- (leibniz2_mul ar R). now apply determinant2_ok.
  - exists (leibniz ar 3 x), (leibniz ar 3 y). split; [exact E |].
    split; [apply determinant3_ok; [exact R | kept] | split; [apply determinant3_ok; [exact R | kept] |]].
    rewrite <- (leibniz3_mul ar R). now apply determinant3_ok.
Qed.
Theorem C47_transpose : commutative_ring -> forall chk (h : memory) (A D : mref) x,
  (disjoint [mslots A 2 2; mslots D 2 2] -> mtx h A 2 2 x -> mdst h D 2 2 ->
   exists h' a, transpose chk 2 2 D A h = Ok h' /\ determinant2 ar chk A h = Ok a /\ determinant2 ar chk D h' = Ok a) /\
  (disjoint [mslots A 3 3; mslots D 3 3] -> mtx h A 3 3 x -> mdst h D 3 3 ->
   exists h' a, transpose chk 3 3 D A h = Ok h' /\ determinant3 ar chk A h = Ok a /\ determinant3 ar chk D h' = Ok a) /\
  (mtx h A 2 2 x -> mdst h A 2 2 ->
   exists h' a, transpose_in_place chk 2 A h = Ok h' /\ determinant2 ar chk A h = Ok a /\ determinant2 ar chk A h' = Ok a) /\
  (mtx h A 3 3 x -> mdst h A 3 3 ->
   exists h' a, transpose_in_place chk 3 A h = Ok h' /\ determinant3 ar chk A h = Ok a /\ determinant3 ar chk A h' = Ok a).
Proof.
  intros R chk h A D x. split; [| split; [| split]]; intros; try pairs.
  1: destruct (@transpose_ok T chk h 2 2 D A x) as (h' & E & V & O); try kept.
  2: destruct (@transpose_ok T chk h 3 3 D A x) as (h' & E & V & O); try kept.
  3: destruct (@transpose_in_place_ok T chk h 2 A x) as (h' & E & V & O); try kept.
  4: destruct (@transpose_in_place_ok T chk h 3 A x) as (h' & E & V & O); try kept.
  all: exists h'; eexists; split; [exact E |].
  1,3: split; [eapply determinant2_ok; eauto |]; rewrite <- (leibniz2_transpose ar R); apply determinant2_ok; auto.
  all: split; [eapply determinant3_ok; eauto |]; rewrite <- (leibniz3_transpose ar R); apply determinant3_ok; auto.
Qed.

(** C50 *)
Theorem C50_cross_product : commutative_ring -> forall chk (h : memory) (A B D E : vref) x y,
  disjoint [vslots A 3; vslots B 3; vslots D 3; vslots E 3] -> vec h A 3 x -> vec h B 3 y -> vdst h D 3 -> vdst h E 3 ->
  exists h' c d a2 b2 ab c2, (h1 <- crossProduct ar chk D A B h ;; crossProduct ar chk E B A h1) = Ok h' /\
    vec h' D 3 c /\ vec h' E 3 d /\ (forall i, i < 3 -> d i = opp ar (c i)) /\
    AiBi ar chk 3 D A h' = Ok (zero ar) /\ AiBi ar chk 3 D B h' = Ok (zero ar) /\
    l2NormSquared ar chk 3 A h' = Ok a2 /\ l2NormSquared ar chk 3 B h' = Ok b2 /\ AiBi ar chk 3 A B h' = Ok ab /\
    l2NormSquared ar chk 3 D h' = Ok c2 /\ c2 + ab * ab = a2 * b2.
Proof.
  intros R chk h A B D E x y. intros. pairs.
  destruct (@crossProduct_ok T ar chk h D A x B y) as (h1 & E1 & V1 & O1); try kept. rewrite E1. cbn [bind].
  destruct (@crossProduct_ok T ar chk h1 E B y A x) as (h2 & E2 & V2 & O2); try kept.
  assert (P3 : 0 < 3) by lia.
  assert (VA : vec h2 A 3 x) by kept. assert (VB : vec h2 B 3 y) by kept.
  assert (VD : vec h2 D 3 (cross ar x y)) by kept.
  exists h2, (cross ar x y), (cross ar y x). do 4 eexists.
  split; [exact E2 |]. split; [exact VD |]. split; [exact V2 |].
  split; [| split; [| split; [| split; [| split; [| split; [| split]]]]]].
  - intros i Hi. now apply cross_opp.
  - rewrite (AiBi_ok _ _ P3 VD VA). f_equal. now apply cross_left.
  - rewrite (AiBi_ok _ _ P3 VD VB). f_equal. now apply cross_right.
  - apply l2NormSquared_ok; eauto.
  - apply l2NormSquared_ok; eauto.
  - apply AiBi_ok; eauto.
  - apply l2NormSquared_ok; eauto.
  - now apply cross_lagrange.
Qed.

(** C49: operations on symmetric storage give what the dense operation gives on the dense matrix.  *)
Theorem C49_storage : forall chk (h : memory),
  (forall A D E s, disjoint [vslots A 3; mslots D 2 2; vslots E 3] -> vec h A 3 s -> mdst h D 2 2 -> vdst h E 3 ->
   exists h' r, (h1 <- symmetricToDense2 chk D A h ;; denseToSymmetric2 chk E D h1) = Ok h' /\
     mtx h' D 2 2 r /\ (forall i j, i < 2 -> j < 2 -> r i j = r j i) /\ vec h' E 3 s) /\
  (forall A D E s, disjoint [vslots A 6; mslots D 3 3; vslots E 6] -> vec h A 6 s -> mdst h D 3 3 -> vdst h E 6 ->
   exists h' r, (h1 <- symmetricToDense3 chk D A h ;; denseToSymmetric3 chk E D h1) = Ok h' /\
     mtx h' D 3 3 r /\ (forall i j, i < 3 -> j < 3 -> r i j = r j i) /\ vec h' E 6 s) /\
  (forall A D E x, disjoint [mslots A 2 2; vslots D 3; mslots E 2 2] -> mtx h A 2 2 x -> (forall i j, i < 2 -> j < 2 -> x i j = x j i) ->
   vdst h D 3 -> mdst h E 2 2 ->
   exists h', (h1 <- denseToSymmetric2 chk D A h ;; symmetricToDense2 chk E D h1) = Ok h' /\ mtx h' E 2 2 x) /\
  (forall A D E x, disjoint [mslots A 3 3; vslots D 6; mslots E 3 3] -> mtx h A 3 3 x -> (forall i j, i < 3 -> j < 3 -> x i j = x j i) ->
   vdst h D 6 -> mdst h E 3 3 ->
   exists h', (h1 <- denseToSymmetric3 chk D A h ;; symmetricToDense3 chk E D h1) = Ok h' /\ mtx h' E 3 3 x).
Proof.
  intros chk h. split; [| split; [| split]]; intros; pairs.
  - destruct (@symmetricToDense2_ok T chk h D A s) as (h1 & E1 & V1 & O1); try kept. rewrite E1. cbn [bind].
    destruct (@denseToSymmetric2_ok T chk h1 E D (dense 2 s)) as (h2 & E2 & V2 & O2); try kept.
    exists h2, (dense 2 s). split; [exact E2 | split; [kept | split]].
    + intros i j Hi Hj. cases i; cases j; reflexivity.
    + eapply vec_ext; [exact V2 |]. intros i Hi. cases i; reflexivity.
  - destruct (@symmetricToDense3_ok T chk h D A s) as (h1 & E1 & V1 & O1); try kept. rewrite E1. cbn [bind].
    destruct (@denseToSymmetric3_ok T chk h1 E D (dense 3 s)) as (h2 & E2 & V2 & O2); try kept.
    exists h2, (dense 3 s). split; [exact E2 | split; [kept | split]].
    + intros i j Hi Hj. cases i; cases j; reflexivity.
    + eapply vec_ext; [exact V2 |]. intros i Hi. cases i; reflexivity.
  - destruct (@denseToSymmetric2_ok T chk h D A x) as (h1 & E1 & V1 & O1); try kept. rewrite E1. cbn [bind].
    edestruct (@symmetricToDense2_ok T chk h1 E D) as (h2 & E2 & V2 & O2); try kept.
    exists h2. split; [exact E2 |]. eapply mtx_ext; [exact V2 |]. intros i j Hi Hj. cases i; cases j; first [reflexivity | apply H1; lia].
  - destruct (@denseToSymmetric3_ok T chk h D A x) as (h1 & E1 & V1 & O1); try kept. rewrite E1. cbn [bind].
    edestruct (@symmetricToDense3_ok T chk h1 E D) as (h2 & E2 & V2 & O2); try kept.
    exists h2. split; [exact E2 |]. eapply mtx_ext; [exact V2 |]. intros i j Hi Hj. cases i; cases j; first [reflexivity | apply H1; lia].
Qed.

Theorem C49_matrix_vector : forall chk (h : memory) (A D B : vref) (E : mref) s y,
  (disjoint [vslots A 3; vslots B 2; vslots D 2; mslots E 2 2] -> vec h A 3 s -> vec h B 2 y -> vdst h D 2 -> mdst h E 2 2 ->
   exists r, vwrote h (Ri_eq_symAijBj2 ar chk D A B h) D 2 r /\
     exists h', (h1 <- symmetricToDense2 chk E A h ;; Ri_eq_AijBj ar chk 2 2 D E B h1) = Ok h' /\ vec h' D 2 r) /\
  (disjoint [vslots A 6; vslots B 3; vslots D 3; mslots E 3 3] -> vec h A 6 s -> vec h B 3 y -> vdst h D 3 -> mdst h E 3 3 ->
   exists r, vwrote h (Ri_eq_symAijBj3 ar chk D A B h) D 3 r /\
     exists h', (h1 <- symmetricToDense3 chk E A h ;; Ri_eq_AijBj ar chk 3 3 D E B h1) = Ok h' /\ vec h' D 3 r) /\
  (forall d, disjoint [vslots A 3; vslots B 2; vslots D 2; mslots E 2 2] -> vec h A 3 s -> vec h B 2 y -> vec h D 2 d -> vdst h D 2 -> mdst h E 2 2 ->
   exists r, vwrote h (Ri_add_symAijBj2 ar chk D A B h) D 2 r /\
     exists h', (h1 <- symmetricToDense2 chk E A h ;; Ri_add_AijBj ar chk 2 2 D E B h1) = Ok h' /\ vec h' D 2 r) /\
  (forall d, disjoint [vslots A 6; vslots B 3; vslots D 3; mslots E 3 3] -> vec h A 6 s -> vec h B 3 y -> vec h D 3 d -> vdst h D 3 -> mdst h E 3 3 ->
   exists r, vwrote h (Ri_add_symAijBj3 ar chk D A B h) D 3 r /\
     exists h', (h1 <- symmetricToDense3 chk E A h ;; Ri_add_AijBj ar chk 3 3 D E B h1) = Ok h' /\ vec h' D 3 r).
Proof.
  intros chk h A D B E s y. assert (0 < 2) by lia. assert (0 < 3) by lia.
  split; [| split; [| split]]; intros; pairs; eexists; (split;
  [ first [apply Ri_eq_symAijBj2_ok | apply Ri_eq_symAijBj3_ok | apply Ri_add_symAijBj2_ok | apply Ri_add_symAijBj3_ok]; kept |]).
  - step symmetricToDense2_ok. last Ri_eq_AijBj_ok. exact V0.
  - step symmetricToDense3_ok. last Ri_eq_AijBj_ok. exact V0.
  - step symmetricToDense2_ok. last Ri_add_AijBj_ok. exact V0.
  - step symmetricToDense3_ok. last Ri_add_AijBj_ok. exact V0.
Qed.

Theorem C49_matrix_matrix : forall chk (h : memory) (A : vref) (D B E : mref) s y,
  (disjoint [vslots A 3; mslots B 2 2; mslots D 2 2; mslots E 2 2] -> vec h A 3 s -> mtx h B 2 2 y -> mdst h D 2 2 -> mdst h E 2 2 ->
   exists r, mwrote h (Rij_eq_symAikBjk2 ar chk D A B h) D 2 2 r /\
     exists h', (h1 <- symmetricToDense2 chk E A h ;; Rij_eq_AikBjk ar chk 2 2 2 D E B h1) = Ok h' /\ mtx h' D 2 2 r) /\
  (disjoint [vslots A 6; mslots B 3 3; mslots D 3 3; mslots E 3 3] -> vec h A 6 s -> mtx h B 3 3 y -> mdst h D 3 3 -> mdst h E 3 3 ->
   exists r, mwrote h (Rij_eq_symAikBjk3 ar chk D A B h) D 3 3 r /\
     exists h', (h1 <- symmetricToDense3 chk E A h ;; Rij_eq_AikBjk ar chk 3 3 3 D E B h1) = Ok h' /\ mtx h' D 3 3 r).
Proof.
  intros chk h A D B E s y. assert (0 < 2) by lia. assert (0 < 3) by lia.
  split; intros; pairs; eexists; (split; [ first [apply Rij_eq_symAikBjk2_ok | apply Rij_eq_symAikBjk3_ok]; kept |]).
  - step symmetricToDense2_ok. last Rij_eq_AikBjk_ok. exact V0.
  - step symmetricToDense3_ok. last Rij_eq_AikBjk_ok. exact V0.
Qed.

(** A S A^T in symmetric storage, over a ring: the same as two dense products of the dense matrix. *)
Theorem C49_congruence : commutative_ring -> forall chk (h : memory) (D B F : vref) (A E P Q : mref) s x,
  (disjoint [vslots B 3; mslots A 2 2; vslots D 3; mslots E 2 2; mslots P 2 2; mslots Q 2 2; vslots F 3] ->
   vec h B 3 s -> mtx h A 2 2 x -> vdst h D 3 -> mdst h E 2 2 -> mdst h P 2 2 -> mdst h Q 2 2 -> vdst h F 3 ->
   exists r, vwrote h (Rij_eq_AikSymBklAjl2 ar chk D A B h) D 3 r /\
     exists h', (h1 <- symmetricToDense2 chk E B h ;; h2 <- Rij_eq_AikBkj ar chk 2 2 2 P A E h1 ;;
                 h3 <- Rij_eq_AikBjk ar chk 2 2 2 Q P A h2 ;; denseToSymmetric2 chk F Q h3) = Ok h' /\ vec h' F 3 r /\ mtx h' Q 2 2 (dense 2 r)) /\
  (disjoint [vslots B 6; mslots A 3 3; vslots D 6; mslots E 3 3; mslots P 3 3; mslots Q 3 3; vslots F 6] ->
   vec h B 6 s -> mtx h A 3 3 x -> vdst h D 6 -> mdst h E 3 3 -> mdst h P 3 3 -> mdst h Q 3 3 -> vdst h F 6 ->
   exists r, vwrote h (Rij_eq_AikSymBklAjl3 ar chk D A B h) D 6 r /\
     exists h', (h1 <- symmetricToDense3 chk E B h ;; h2 <- Rij_eq_AikBkj ar chk 3 3 3 P A E h1 ;;
                 h3 <- Rij_eq_AikBjk ar chk 3 3 3 Q P A h2 ;; denseToSymmetric3 chk F Q h3) = Ok h' /\ vec h' F 6 r /\ mtx h' Q 3 3 (dense 3 r)).
Proof.
  intros R chk h D B F A E P Q s x. assert (0 < 2) by lia. assert (0 < 3) by lia.
  split; intros; pairs; eexists; (split; [ first [apply Rij_eq_AikSymBklAjl2_ok | apply Rij_eq_AikSymBklAjl3_ok]; kept |]).
  - step symmetricToDense2_ok. step Rij_eq_AikBkj_ok. step Rij_eq_AikBjk_ok. last denseToSymmetric2_ok.
    split; [eapply vec_ext; [exact V2 |] | eapply mtx_ext; [kept |]].
    + intros i Hi. cases i; apply (congruence_direct ar R).
    + intros i j Hi Hj. cases i; cases j; first [apply (congruence_direct ar R) | apply (congruence_swapped ar R)];
      intros k l Hk Hl; cases k; cases l; reflexivity.
  - step symmetricToDense3_ok. step Rij_eq_AikBkj_ok. step Rij_eq_AikBjk_ok. last denseToSymmetric3_ok.
    split; [eapply vec_ext; [exact V2 |] | eapply mtx_ext; [kept |]].
    + intros i Hi. cases i; apply (congruence_direct ar R).
    + intros i j Hi Hj. cases i; cases j; first [apply (congruence_direct ar R) | apply (congruence_swapped ar R)];
      intros k l Hk Hl; cases k; cases l; reflexivity.
Qed.

(** The symmetric outer products. *)
Theorem C49_outer : forall chk (h : memory) (A D F B : vref) (E : mref) x y,
  (disjoint [vslots A 2; vslots D 3; mslots E 2 2; vslots F 3] -> vec h A 2 x -> vdst h D 3 -> mdst h E 2 2 -> vdst h F 3 ->
   exists r, vwrote h (symRij_eq_AiAj2 ar chk D A h) D 3 r /\
     exists h', (h1 <- Rij_eq_AiBj ar chk 2 2 E A A h ;; denseToSymmetric2 chk F E h1) = Ok h' /\ vec h' F 3 r) /\
  (disjoint [vslots A 3; vslots D 6; mslots E 3 3; vslots F 6] -> vec h A 3 x -> vdst h D 6 -> mdst h E 3 3 -> vdst h F 6 ->
   exists r, vwrote h (symRij_eq_AiAj3 ar chk D A h) D 6 r /\
     exists h', (h1 <- Rij_eq_AiBj ar chk 3 3 E A A h ;; denseToSymmetric3 chk F E h1) = Ok h' /\ vec h' F 6 r) /\
  (commutative_ring -> disjoint [vslots A 2; vslots B 2; vslots D 3; mslots E 2 2; vslots F 3] ->
   vec h A 2 x -> vec h B 2 y -> vdst h D 3 -> mdst h E 2 2 -> vdst h F 3 ->
   exists r, vwrote h (symRij_eq_AiBj_plus_AjBi2 ar chk D A B h) D 3 r /\
     exists h', (h1 <- Rij_eq_AiBj ar chk 2 2 E A B h ;; h2 <- Rij_add_AiBj ar chk 2 2 E B A h1 ;; denseToSymmetric2 chk F E h2) = Ok h' /\
       vec h' F 3 r /\ mtx h' E 2 2 (dense 2 r)) /\
  (commutative_ring -> disjoint [vslots A 3; vslots B 3; vslots D 6; mslots E 3 3; vslots F 6] ->
   vec h A 3 x -> vec h B 3 y -> vdst h D 6 -> mdst h E 3 3 -> vdst h F 6 ->
   exists r, vwrote h (symRij_eq_AiBj_plus_AjBi3 ar chk D A B h) D 6 r /\
     exists h', (h1 <- Rij_eq_AiBj ar chk 3 3 E A B h ;; h2 <- Rij_add_AiBj ar chk 3 3 E B A h1 ;; denseToSymmetric3 chk F E h2) = Ok h' /\
       vec h' F 6 r /\ mtx h' E 3 3 (dense 3 r)).
Proof.
  intros chk h A D F B E x y. split; [| split; [| split]].
  - intros. pairs. eexists. split; [apply symRij_eq_AiAj2_ok; kept |].
    step Rij_eq_AiBj_ok. last denseToSymmetric2_ok. eapply vec_ext; [exact V0 |]. intros i Hi. cases i; reflexivity.
  - intros. pairs. eexists. split; [apply symRij_eq_AiAj3_ok; kept |].
    step Rij_eq_AiBj_ok. last denseToSymmetric3_ok. eapply vec_ext; [exact V0 |]. intros i Hi. cases i; reflexivity.
  - intros R. intros. pairs. eexists. split; [apply symRij_eq_AiBj_plus_AjBi2_ok; kept |].
    step Rij_eq_AiBj_ok. step Rij_add_AiBj_ok. last denseToSymmetric2_ok.
    split; [eapply vec_ext; [exact V1 |] | eapply mtx_ext; [kept |]].
    + intros i Hi. cases i; cbn -[add mul]; f_equal; apply (Rmul_comm R).
    + intros i j Hi Hj. cases i; cases j; unfold dense, voigt, vrow, vcol; cbn -[add mul];
      solve [rewrite ?(Rmul_comm R (x _) (y _)); first [reflexivity | apply (Radd_comm R)]].
  - intros R. intros. pairs. eexists. split; [apply symRij_eq_AiBj_plus_AjBi3_ok; kept |].
    step Rij_eq_AiBj_ok. step Rij_add_AiBj_ok. last denseToSymmetric3_ok.
    split; [eapply vec_ext; [exact V1 |] | eapply mtx_ext; [kept |]].
    + intros i Hi. cases i; cbn -[add mul]; f_equal; apply (Rmul_comm R).
    + intros i j Hi Hj. cases i; cases j; unfold dense, voigt, vrow, vcol; cbn -[add mul];
      solve [rewrite ?(Rmul_comm R (x _) (y _)); first [reflexivity | apply (Radd_comm R)]].
Qed.
End OverRing.

Section OverField.
Variable T : Type.
Variable ar : arith T.
Variable inv : T -> T.
Notation memory := (list (option T)).
Definition field_laws : Prop := field_theory (zero ar) (one ar) (add ar) (mul ar) (sub ar) (opp ar) (div ar) inv eq.

(** An operation that leaves [y] in the destination, returns [d] and writes nothing else. *)
Definition mreturned (h : memory) (r : outcome (memory * T)) (a : mref) (n : nat) (y : nat -> nat -> T) (d : T) : Prop :=
  exists h', r = Ok (h', d) /\ mtx h' a n n y /\ only (mslots a n n) h h'.
Definition vreturned (h : memory) (r : outcome (memory * T)) (a : vref) (n : nat) (y : nat -> T) (d : T) : Prop :=
  exists h', r = Ok (h', d) /\ vec h' a n y /\ only (vslots a n) h h'.

(** C46: one matrix, the inverse on both sides if the determinant is not zero, is what [invert] leaves in its destination
    and what the in place version leaves in its argument; both return the determinant. *)
Theorem C46_invert2 : field_laws -> forall x : nat -> nat -> T, exists y,
  (leibniz ar 2 x <> zero ar -> inverses ar 2 x y) /\
  (forall chk (h : memory) D A, mdst h D 2 2 -> mtx h A 2 2 x -> apart (mslots D 2 2) (mslots A 2 2) ->
     mreturned h (invert2 ar chk D A h) D 2 y (leibniz ar 2 x)) /\
  (forall chk (h : memory) D, mdst h D 2 2 -> mtx h D 2 2 x -> mreturned h (invert2_in_place ar chk D h) D 2 y (leibniz ar 2 x)).
Proof.
  intros F x. exists (inverse2 ar x). split; [| split].
  - apply (inverse2_ok ar F).
  - intros chk h D A Hd V P. destruct (invert2_ok ar chk F Hd V P) as ([h' d] & E & -> & V' & O). exists h'. auto.
  - intros chk h D Hd V. destruct (invert2_in_place_ok ar chk F Hd V) as ([h' d] & E & -> & V' & O). exists h'. auto.
Qed.
Theorem C46_invert3 : field_laws -> forall x : nat -> nat -> T, exists y,
  (leibniz ar 3 x <> zero ar -> inverses ar 3 x y) /\
  (forall chk (h : memory) D A, mdst h D 3 3 -> mtx h A 3 3 x -> apart (mslots D 3 3) (mslots A 3 3) ->
     mreturned h (invert3 ar chk D A h) D 3 y (leibniz ar 3 x)) /\
  (forall (h : memory) D, mdst h D 3 3 -> mtx h D 3 3 x -> mreturned h (invert3_in_place ar D h) D 3 y (leibniz ar 3 x)).
Proof.
  intros F x. exists (inverse3 ar x). split; [| split].
  - apply (inverse3_ok ar F).
  - intros chk h D A Hd V P. destruct (invert3_ok ar chk F Hd V P) as ([h' d] & E & -> & V' & O). exists h'. auto.
  - intros h D Hd V. destruct (invert3_in_place_ok ar F Hd V) as ([h' d] & E & -> & V' & O). exists h'. auto.
Qed.
(** The inverse of a symmetric matrix in symmetric storage: the matrix it stands for is what [invert] gives for the dense matrix. *)
Theorem C46_symInvert2 : field_laws -> forall s : nat -> T, exists r,
  (leibniz ar 2 (dense 2 s) <> zero ar -> inverses ar 2 (dense 2 s) (dense 2 r)) /\
  (forall chk (h : memory) D A, mdst h D 2 2 -> mtx h A 2 2 (dense 2 s) -> apart (mslots D 2 2) (mslots A 2 2) ->
     mreturned h (invert2 ar chk D A h) D 2 (dense 2 r) (leibniz ar 2 (dense 2 s))) /\
  (forall chk (h : memory) D A, vdst h D 3 -> vec h A 3 s -> apart (vslots D 3) (vslots A 3) ->
     vreturned h (symInvert2 ar chk D A h) D 3 r (leibniz ar 2 (dense 2 s))) /\
  (forall chk (h : memory) D, vdst h D 3 -> vec h D 3 s -> vreturned h (symInvert2_in_place ar chk D h) D 3 r (leibniz ar 2 (dense 2 s))).
Proof.
  intros F s. exists (fun k => inverse2 ar (dense 2 s) (vrow 2 k) (vcol 2 k)).
  assert (Same : forall i j, i < 2 -> j < 2 ->
     inverse2 ar (dense 2 s) i j = dense 2 (fun k => inverse2 ar (dense 2 s) (vrow 2 k) (vcol 2 k)) i j).
  { intros i j Hi Hj. cases i; cases j; reflexivity. }
  split; [| split; [| split]].
  - intros N. destruct (inverse2_ok ar F _ N) as [L R]. split; unfold identity; intros i Hi j Hj.
    + rewrite <- (L i Hi j Hj). apply sum_ext. intros k Hk. now rewrite Same.
    + rewrite <- (R i Hi j Hj). apply sum_ext. intros k Hk. now rewrite Same.
  - intros chk h D A Hd V P. destruct (invert2_ok ar chk F Hd V P) as ([h' d] & E & -> & V' & O). exists h'. split; [auto | split; [| auto]].
    eapply mtx_ext; [exact V' | exact Same].
  - intros chk h D A Hd V P. destruct (symInvert2_ok ar chk F Hd V P) as ([h' d] & E & -> & V' & O). exists h'. auto.
  - intros chk h D Hd V. destruct (symInvert2_in_place_ok ar chk F Hd V) as ([h' d] & E & -> & V' & O). exists h'. auto.
Qed.
Theorem C46_symInvert3 : field_laws -> forall s : nat -> T, exists r,
  (leibniz ar 3 (dense 3 s) <> zero ar -> inverses ar 3 (dense 3 s) (dense 3 r)) /\
  (forall chk (h : memory) D A, mdst h D 3 3 -> mtx h A 3 3 (dense 3 s) -> apart (mslots D 3 3) (mslots A 3 3) ->
     mreturned h (invert3 ar chk D A h) D 3 (dense 3 r) (leibniz ar 3 (dense 3 s))) /\
  (forall chk (h : memory) D A, vdst h D 6 -> vec h A 6 s -> apart (vslots D 6) (vslots A 6) ->
     vreturned h (symInvert3 ar chk D A h) D 6 r (leibniz ar 3 (dense 3 s))) /\
  (forall chk (h : memory) D, vdst h D 6 -> vec h D 6 s -> vreturned h (symInvert3_in_place ar chk D h) D 6 r (leibniz ar 3 (dense 3 s))).
Proof.
  intros F s. exists (fun k => inverse3 ar (dense 3 s) (vrow 3 k) (vcol 3 k)).
  assert (Same : forall i j, i < 3 -> j < 3 ->
     inverse3 ar (dense 3 s) i j = dense 3 (fun k => inverse3 ar (dense 3 s) (vrow 3 k) (vcol 3 k)) i j).
  { intros i j Hi Hj. pose proof (Rmul_comm (F_R F)) as C.
    cases i; cases j; try reflexivity; unfold inverse3, cofactor3, dense, voigt, vrow, vcol; cbn -[add mul sub opp div leibniz];
    apply f_equal2; try reflexivity; apply f_equal2; try reflexivity; apply C. }
  split; [| split; [| split]].
  - intros N. destruct (inverse3_ok ar F _ N) as [L R]. split; unfold identity; intros i Hi j Hj.
    + rewrite <- (L i Hi j Hj). apply sum_ext. intros k Hk. now rewrite Same.
    + rewrite <- (R i Hi j Hj). apply sum_ext. intros k Hk. now rewrite Same.
  - intros chk h D A Hd V P. destruct (invert3_ok ar chk F Hd V P) as ([h' d] & E & -> & V' & O). exists h'. split; [auto | split; [| auto]].
    eapply mtx_ext; [exact V' | exact Same].
  - intros chk h D A Hd V P. destruct (symInvert3_ok ar chk F Hd V P) as ([h' d] & E & -> & V' & O). exists h'. auto.
  - intros chk h D Hd V. destruct (symInvert3_in_place_ok ar chk F Hd V) as ([h' d] & E & -> & V' & O). exists h'. auto.
Qed.
End OverField.

(** The theorems hold of actual operands, over integers and rationals. *)
Definition integers : arith Z := Arith 0%Z 1%Z Z.add Z.sub Z.mul Z.div Z.opp.
Definition rationals : arith Qcanon.Qc := Arith (Qcanon.Q2Qc (QArith_base.Qmake 0 1)) (Qcanon.Q2Qc (QArith_base.Qmake 1 1)) Qcanon.Qcplus Qcanon.Qcminus Qcanon.Qcmult Qcanon.Qcdiv Qcanon.Qcopp.
Definition q (n : Z) (d : positive) : Qcanon.Qc := Qcanon.Q2Qc (QArith_base.Qmake n d).
(** The fractions in lowest terms. *)
Definition fractions (r : outcome (list (option Qcanon.Qc) * Qcanon.Qc)) :=
  '(h, d) <- r ;; Ok (map (option_map Qcanon.this) h, Qcanon.this d).
Example C46_case :
  field_laws rationals Qcanon.Qcinv /\
  fractions (invert3_in_place rationals (cmatrix 0 3 3) (map (fun z => Some (q z 1)) [2; 0; 1; 0; 1; 0; 1; 0; 1]%Z))
    = fractions (Ok (map (fun z => Some (q z 1)) [1; 0; -1; 0; 1; 0; -1; 0; 2]%Z, q 1 1)) /\
  fractions (symInvert3_in_place rationals true (carray 0 6) (map (fun z => Some (q z 1)) [2; 1; 1; 0; 1; 0]%Z))
    = fractions (Ok (map (fun z => Some (q z 1)) [1; 1; 2; 0; -1; 0]%Z, q 1 1)) /\
  fractions (invert2 rationals true (cmatrix 4 2 2) (cmatrix 0 2 2) (map (fun z => Some (q z 1)) [1; 2; 3; 4]%Z ++ repeat None 4))
    = fractions (Ok (map Some [q 1 1; q 2 1; q 3 1; q 4 1; q (-2) 1; q 1 1; q 3 2; q (-1) 2], q (-2) 1)).
Proof. split; [exact Qcanon.Qcft | repeat split; try (apply Qcanon.Qc_is_canon); vm_compute; reflexivity]. Qed.
Example C47_case :
  commutative_ring integers /\
  determinant3 integers true (cmatrix 0 3 3) (map Some [2; 0; 1; 5; 3; 7; 1; 4; 6])%Z = Ok (-3)%Z /\
  symDeterminant3 integers true (carray 0 6) (map Some [1; 2; 3; 4; 5; 6])%Z = Ok 72%Z /\
  leibniz integers 3 (dense 3 (fun k => nth k [1; 2; 3; 4; 5; 6]%Z 0%Z)) = 72%Z.
Proof. split; [exact Zth | vm_compute; auto]. Qed.
Example C49_case :
  Ri_eq_symAijBj3 integers true (carray 9 3) (carray 0 6) (carray 6 3) (map Some [1; 2; 3; 4; 5; 6; 1; 2; 3]%Z ++ repeat None 3)
    = Ok (map Some [1; 2; 3; 4; 5; 6; 1; 2; 3; 28; 22; 22]%Z) /\
  disjoint [vslots (carray 0 6) 6; vslots (carray 6 3) 3; vslots (carray 9 3) 3].
Proof.
  split; [vm_compute; reflexivity |].
  repeat constructor; intros s (i & Hi & E) (j & Hj & E'); cbn in *; lia.
Qed.
Example C50_case :
  crossProduct integers true (carray 6 3) (carray 0 3) (carray 3 3) (map Some [1; 2; 3; 4; 5; 6]%Z ++ repeat None 3)
    = Ok (map Some [1; 2; 3; 4; 5; 6; -3; 6; -3]%Z).
Proof. vm_compute. reflexivity. Qed.

Print Assumptions C47_determinant.
Print Assumptions C47_multiplicative.
Print Assumptions C47_transpose.
Print Assumptions C50_cross_product.
Print Assumptions C49_storage.
Print Assumptions C49_matrix_vector.
Print Assumptions C49_matrix_matrix.
Print Assumptions C49_congruence.
Print Assumptions C49_outer.
Print Assumptions C46_invert2.
Print Assumptions C46_invert3.
Print Assumptions C46_symInvert2.
Print Assumptions C46_symInvert3.
