(** The eigenvectors of the shifted 3x3 matrix over the real numbers. *)
From Coq Require Import Reals List Arith Bool Lra Lia Psatz FunctionalExtensionality.
From Verif Require Import Base Tensor TensorSpec TensorFixed Eigen EigenProofs EigenProofs2 EigenReal EigenSpec EigenMath EigenMath2 EigenReal2.
Import ListNotations.
Set Implicit Arguments.
Local Open Scope R_scope.

Lemma cross_unit u v : dot u u = 1 -> dot v v = 1 -> dot u v = 0 -> dot (rcross u v) (rcross u v) = 1.
Proof.
  intros A B C. transitivity (dot u u * dot v v - dot u v * dot u v); [unfold dot, rcross; cbn; ring | rewrite A, B, C; ring].
Qed.
Lemma cross_left u v : dot u (rcross u v) = 0.
Proof. unfold dot, rcross. cbn. ring. Qed.
Lemma cross_right u v : dot v (rcross u v) = 0.
Proof. unfold dot, rcross. cbn. ring. Qed.

Section Real.
Variable eps : R.
Notation fl := (rfloating eps).
Notation some a := (fun i : nat => Some (a i : R)).
Notation some2 m := (fun i j : nat => Some (m i j : R)).
Variable c : nat -> R.
Hypothesis tr : c 2%nat = - c 0%nat - c 1%nat.
Notation C := (dense 3 c).
Definition mm (l : R) (i j : nat) : R := if (i =? j)%nat then c i - l else C i j.
Lemma minus_some l : minus rarith (some c) (Some l) = some2 (mm l).
Proof. extensionality i. extensionality j. unfold minus, mm. destruct (i =? j)%nat; reflexivity. Qed.
Lemma mm_det l : mdet (mm l) = - (l * l * l) + 3 * qof c * l + dof c.
Proof. unfold mdet, mm, dense, voigt, qof, dof. cbn. rewrite tr. field. Qed.
Lemma mm_minors l : mminors (mm l) = 3 * (l * l) - 3 * qof c.
Proof. unfold mminors, mm, dense, voigt, qof. cbn. rewrite tr. field. Qed.
Lemma mm_dot l i x : (i < 3)%nat -> dot (mm l i) x = apply3 C x i - l * x i.
Proof. intros Hi. destruct i as [| [| [| i]]]; [| | | lia]; unfold apply3, dot, mm, dense, voigt; cbn; ring. Qed.
Lemma C_squares : square_sum C = 6 * qof c.
Proof. unfold square_sum, dense, voigt, qof. cbn. rewrite tr. field. Qed.

Section Pair.
Variables lu lv lw tau : R.
Hypothesis sum0 : lu + lv + lw = 0.
Hypothesis pairs : lu * lv + lu * lw + lv * lw = - 3 * qof c.
Hypothesis prod : lu * lv * lw = dof c.
Hypothesis distinct : 0 < (lu - lv) * (lu - lw).
Hypothesis extreme : lv <> lw -> 0 < (lv - lu) * (lv - lw).
Hypothesis Htau : 0 <= tau.

Lemma null_of l l1 l2 : l + l1 + l2 = 0 -> l * l1 + l * l2 + l1 * l2 = - 3 * qof c -> l * l1 * l2 = dof c -> 0 < (l - l1) * (l - l2) ->
  (exists u, null_vector rarith fl (minus rarith (some c) (Some l)) = some u /\ dot u u = 1 /\ forall i, (i < 3)%nat -> apply3 C u i = l * u i) /\
  0 < dot (mm l (largest_row fl (some2 (mm l)))) (mm l (largest_row fl (some2 (mm l)))).
Proof.
  intros S P D G. rewrite minus_some.
  assert (Z : mdet (mm l) = 0).
  { rewrite mm_det, <- D. replace (3 * qof c) with (- (l * l1 + l * l2 + l1 * l2)) by lra. replace l2 with (- l - l1) by lra. ring. }
  assert (M : 0 < mminors (mm l)).
  { rewrite mm_minors. replace (3 * (l * l) - 3 * qof c) with ((l - l1) * (l - l2)); [exact G |].
    replace (3 * qof c) with (- (l * l1 + l * l2 + l1 * l2)) by lra. replace l2 with (- l - l1) by lra. ring. }
  split.
  - destruct (@null_vector_some eps (mm l)) as (u & E & U & O); auto.
    exists u. split; [exact E | split; [exact U |]]. intros i Hi. specialize (O i Hi). rewrite mm_dot in O by auto. lra.
  - apply largest_row_nonzero; auto using largest_row_lt. apply largest_row_some.
Qed.

Lemma pair_some : exists u v,
  null_vector rarith fl (minus rarith (some c) (Some lu)) = some u /\
  (fun i => let m := minus rarith (some c) (Some lu) in let r := m (largest_row fl m) in
     if rle (Some (Rabs (lv - lw))) (Some tau) then mul rarith (finvSqrt fl (norm2 rarith r)) (r i)
     else null_vector rarith fl (minus rarith (some c) (Some lv)) i) = some v /\
  dot u u = 1 /\ dot v v = 1 /\ dot u v = 0 /\ (forall i, (i < 3)%nat -> apply3 C u i = lu * u i) /\
  (tau < Rabs (lv - lw) -> off C lv v = 0).
Proof.
  destruct (@null_of lu lv lw) as ((u & Eu & Uu & Ou) & Nz); auto. exists u.
  assert (Adj : forall x y, dot (apply3 C x) y = dot (apply3 C y) x) by (intros; apply self_adjoint; reflexivity).
  assert (Iu : forall x, dot (apply3 C x) u = lu * dot x u).
  { intros x. rewrite Adj. unfold dot at 1. rewrite !Ou by lia. unfold dot. ring. }
  destruct (Rle_dec (Rabs (lv - lw)) tau) as [L | L].
  - rewrite minus_some. cbv zeta. set (r := mm lu (largest_row fl (some2 (mm lu)))) in *.
    rewrite rle_true by auto. fold r. rewrite (norm2_some r).
    change (finvSqrt fl (Some (dot r r))) with (rdiv (Some 1) (rsqrt (Some (dot r r)))). rewrite invsqrt_some by auto.
    set (k := 1 / sqrt (dot r r)). exists (fun i => k * r i). rewrite <- minus_some.
    split; [exact Eu | split; [reflexivity | split; [exact Uu |]]].
    assert (U : dot r r * (k * k) = 1) by now apply root_unit.
    split; [transitivity (dot r r * (k * k)); [unfold dot; ring | exact U] |].
    split; [| split; [exact Ou | lra]].
    assert (Z : dot r u = 0) by (unfold r; rewrite mm_dot by apply largest_row_lt; rewrite Ou by apply largest_row_lt; ring).
    transitivity (k * dot r u); [unfold dot; ring | rewrite Z; ring].
  - assert (N : lv <> lw) by (intros ->; rewrite Rminus_diag_eq, Rabs_R0 in L by auto; lra).
    destruct (@null_of lv lu lw) as ((v & Ev & Uv & Ov) & _); auto; try lra.
    exists v. rewrite rle_false by lra. split; [exact Eu | split; [exact Ev | split; [exact Uu | split; [exact Uv |]]]].
    split; [| split; [exact Ou |]].
    + specialize (Iu v). assert (Iv : dot (apply3 C v) u = lv * dot v u) by (unfold dot at 1; rewrite !Ov by lia; unfold dot; ring).
      rewrite Iv in Iu. assert (Z : (lu - lv) * dot v u = 0) by lra. apply Rmult_integral in Z. destruct Z as [Z | Z]; [rewrite Z in distinct; lra |].
      rewrite <- Z. unfold dot. ring.
    + intros _. unfold off, dot. rewrite !Ov by lia. ring.
Qed.
End Pair.

Variable l : nat -> R.
Hypothesis sum0 : l 0%nat + l 1%nat + l 2%nat = 0.
Hypothesis pairs : l 0%nat * l 1%nat + l 0%nat * l 2%nat + l 1%nat * l 2%nat = - 3 * qof c.
Hypothesis prod : l 0%nat * l 1%nat * l 2%nat = dof c.
Hypothesis le01 : l 0%nat <= l 1%nat.
Hypothesis le12 : l 1%nat <= l 2%nat.
Hypothesis differ : l 0%nat < l 2%nat.
Hypothesis Heps : 0 <= eps.
Let d := l 2%nat - l 0%nat.
Let gap := Rmin (l 1%nat - l 0%nat) (l 2%nat - l 1%nat).

Definition frame (v : nat -> nat -> R) : Prop :=
  dot (v 0%nat) (v 0%nat) = 1 /\ dot (v 1%nat) (v 1%nat) = 1 /\ dot (v 2%nat) (v 2%nat) = 1 /\
  dot (v 0%nat) (v 1%nat) = 0 /\ dot (v 0%nat) (v 2%nat) = 0 /\ dot (v 1%nat) (v 2%nat) = 0.

Lemma vectors3_some : exists v, (forall i j, (i < 3)%nat -> vectors3 rarith fl (some c) (some l) (Some d) i j = Some (v i j)) /\ frame v /\
  (forall i, (i < 3)%nat -> off C (l i) (v i) <= gap ^ 2) /\ (2 * eps * d < gap -> forall i, (i < 3)%nat -> off C (l i) (v i) = 0) /\
  (if Rlt_dec (l 1%nat - l 0%nat) (l 2%nat - l 1%nat) then off C (l 2%nat) (v 2%nat) = 0 else off C (l 0%nat) (v 0%nat) = 0).
Proof.
  assert (Ht : 0 <= (1 + 1) * eps * d) by (unfold d; repeat apply Rmult_le_pos; lra).
  assert (E2 : (1 + 1) * eps * d = 2 * eps * d) by ring.
  assert (Symm : C 1%nat 0%nat = C 0%nat 1%nat /\ C 2%nat 0%nat = C 0%nat 2%nat /\ C 2%nat 1%nat = C 1%nat 2%nat) by (repeat split).
  destruct Symm as (S1 & S2 & S3).
  assert (Tr : C 0%nat 0%nat + C 1%nat 1%nat + C 2%nat 2%nat = 0) by (change (c 0%nat + c 1%nat + c 2%nat = 0); lra).
  assert (Sq : forall a b e, a + b + e = 0 -> a * b + a * e + b * e = - 3 * qof c -> a ^ 2 + b ^ 2 + e ^ 2 = square_sum C).
  { intros a b e A B. rewrite C_squares. replace e with (- a - b) in * by lra. nra. }
  destruct (Rlt_dec (l 1%nat - l 0%nat) (l 2%nat - l 1%nat)) as [G | G].
  - (* the largest eigenvalue first *)
    assert (Md : most_distinct rarith fl (some l) = 2%nat).
    { unfold most_distinct. change (fgt fl _ _) with (rgt (Some (l 2%nat - l 1%nat)) (Some (l 1%nat - l 0%nat))). now rewrite rgt_true. }
    destruct (@pair_some (l 2%nat) (l 0%nat) (l 1%nat) ((1 + 1) * eps * d)) as (u & v & Eu & Ev & Uu & Uv & Z & Ou & Ex); auto; try lra.
    { apply Rmult_lt_0_compat; lra. }
    { intros N. assert (l 0%nat < l 1%nat) by lra. replace ((l 0%nat - l 2%nat) * (l 0%nat - l 1%nat)) with ((l 2%nat - l 0%nat) * (l 1%nat - l 0%nat)) by ring.
      apply Rmult_lt_0_compat; lra. }
    set (w := rcross u v). assert (W : dot w w = 1) by now apply cross_unit.
    assert (Uw : dot u w = 0) by apply cross_left. assert (Vw : dot v w = 0) by apply cross_right.
    assert (Gap : gap = l 1%nat - l 0%nat) by (unfold gap, Rmin; destruct (Rle_dec _ _); lra).
    assert (Ab : Rabs (l 0%nat - l 1%nat) = gap) by (rewrite Rabs_left1, Gap by lra; ring).
    pose proof (@off_plane u v w Uu Uv W Z Uw Vw C S1 S2 S3 (l 2%nat) (l 0%nat) (l 1%nat) Ou) as Pl.
    pose proof (@off_third u v w Uu Uv W Z Uw Vw C S1 S2 S3 (l 2%nat) (l 0%nat) (l 1%nat) Ou) as Th.
    assert (A1 : l 2%nat + l 0%nat + l 1%nat = C 0%nat 0%nat + C 1%nat 1%nat + C 2%nat 2%nat) by lra.
    assert (A2 : l 2%nat ^ 2 + l 0%nat ^ 2 + l 1%nat ^ 2 = square_sum C) by (apply Sq; lra).
    specialize (Pl A1 A2). specialize (Th A1 A2).
    pose proof (@off_u u C (l 2%nat) Ou) as O2.
    exists (fun i => match i with O => v | 1%nat => w | _ => u end).
    split; [| split; [| split; [| split]]].
    + intros i j Hi. unfold vectors3. rewrite Md. cbv zeta. cbn [Nat.eqb].
      assert (Sv : second_vector rarith fl (some c) (some l) (Some d) = some v).
      { rewrite <- Ev. extensionality k. unfold second_vector. rewrite Md. reflexivity. }
      rewrite Sv, Eu, (cross_some u v). fold w. rewrite (norm2_some w), W.
      change (finvSqrt fl (Some 1)) with (rdiv (Some 1) (rsqrt (Some 1))). rewrite invsqrt_some, sqrt_1 by lra.
      destruct i as [| [| [| i]]]; [| | | lia]; cbn [Nat.eqb]; auto.
      change (Some (w j * (1 / 1)) = Some (w j)). f_equal. field.
    + assert (dot v u = 0) by (rewrite <- Z; unfold dot; ring). assert (dot w u = 0) by (rewrite <- Uw; unfold dot; ring). unfold frame. repeat split; auto.
    + intros i Hi. rewrite Gap. destruct Pl as (P0 & P1). destruct i as [| [| [| i]]]; [| | | lia]; auto. rewrite O2. apply pow2_ge_0.
    + intros T. rewrite Ab in Ex. assert (O0 : off C (l 0%nat) v = 0) by (apply Ex; lra). specialize (Th O0).
      intros i Hi. destruct i as [| [| [| i]]]; [| | | lia]; auto.
    + exact O2.
  - (* the smallest eigenvalue first *)
    assert (Md : most_distinct rarith fl (some l) = 0%nat).
    { unfold most_distinct. change (fgt fl _ _) with (rgt (Some (l 2%nat - l 1%nat)) (Some (l 1%nat - l 0%nat))). rewrite rgt_false by lra. reflexivity. }
    destruct (@pair_some (l 0%nat) (l 2%nat) (l 1%nat) ((1 + 1) * eps * d)) as (u & v & Eu & Ev & Uu & Uv & Z & Ou & Ex); auto; try lra.
    { replace ((l 0%nat - l 2%nat) * (l 0%nat - l 1%nat)) with ((l 2%nat - l 0%nat) * (l 1%nat - l 0%nat)) by ring. apply Rmult_lt_0_compat; lra. }
    { intros N. apply Rmult_lt_0_compat; lra. }
    set (w := rcross v u). assert (Z' : dot v u = 0) by (rewrite <- Z; unfold dot; ring).
    assert (W : dot w w = 1) by now apply cross_unit.
    assert (Uw : dot u w = 0) by apply cross_right. assert (Vw : dot v w = 0) by apply cross_left.
    assert (Gap : gap = l 2%nat - l 1%nat) by (unfold gap, Rmin; destruct (Rle_dec _ _); lra).
    assert (Ab : Rabs (l 2%nat - l 1%nat) = gap) by (rewrite Rabs_right, Gap by lra; ring).
    pose proof (@off_plane u v w Uu Uv W Z Uw Vw C S1 S2 S3 (l 0%nat) (l 2%nat) (l 1%nat) Ou) as Pl.
    pose proof (@off_third u v w Uu Uv W Z Uw Vw C S1 S2 S3 (l 0%nat) (l 2%nat) (l 1%nat) Ou) as Th.
    assert (A1 : l 0%nat + l 2%nat + l 1%nat = C 0%nat 0%nat + C 1%nat 1%nat + C 2%nat 2%nat) by lra.
    assert (A2 : l 0%nat ^ 2 + l 2%nat ^ 2 + l 1%nat ^ 2 = square_sum C) by (apply Sq; lra).
    specialize (Pl A1 A2). specialize (Th A1 A2).
    pose proof (@off_u u C (l 0%nat) Ou) as O2.
    exists (fun i => match i with O => u | 1%nat => w | _ => v end).
    split; [| split; [| split; [| split]]].
    + intros i j Hi. unfold vectors3. rewrite Md. cbv zeta. cbn [Nat.eqb].
      assert (Sv : second_vector rarith fl (some c) (some l) (Some d) = some v).
      { rewrite <- Ev. extensionality k. unfold second_vector. rewrite Md. reflexivity. }
      rewrite Sv, Eu, (cross_some v u). fold w. rewrite (norm2_some w), W.
      change (finvSqrt fl (Some 1)) with (rdiv (Some 1) (rsqrt (Some 1))). rewrite invsqrt_some, sqrt_1 by lra.
      destruct i as [| [| [| i]]]; [| | | lia]; cbn [Nat.eqb]; auto.
      change (Some (w j * (1 / 1)) = Some (w j)). f_equal. field.
    + assert (dot w v = 0) by (rewrite <- Vw; unfold dot; ring). unfold frame. repeat split; auto.
    + intros i Hi. rewrite Gap. destruct Pl as (P0 & P1).
      replace ((l 1%nat - l 2%nat) ^ 2) with ((l 2%nat - l 1%nat) ^ 2) in * by ring.
      destruct i as [| [| [| i]]]; [| | | lia]; auto. rewrite O2. apply pow2_ge_0.
    + intros T. rewrite Ab in Ex. assert (O0 : off C (l 2%nat) v = 0) by (apply Ex; lra). specialize (Th O0).
      intros i Hi. destruct i as [| [| [| i]]]; [| | | lia]; auto.
    + exact O2.
Qed.
End Real.
