(** C58: the eigenvalues and eigenvectors of symmetric 2x2 and 3x3 matrices, over the real numbers. *)
From Coq Require Import Reals List Arith Bool Lra Lia Psatz.
From Verif Require Import Base BaseProofs Tensor TensorSpec TensorFixed Eigen EigenProofs EigenProofs2 EigenReal EigenSpec EigenMath EigenMath2 EigenReal2 EigenReal3.
Import ListNotations.
Set Implicit Arguments.
Local Open Scope R_scope.

Notation some a := (fun i : nat => Some (a i : R)).
Notation some2 m := (fun i j : nat => Some (m i j : R)).

Lemma vec_ext T h A n (x y : nat -> T) : vec h A n x -> (forall i, (i < n)%nat -> x i = y i) -> vec h A n y.
Proof. intros (L & V) E. split; [auto |]. intros i Hi. rewrite V, E; auto. Qed.
Lemma mtx_ext T h A n m (x y : nat -> nat -> T) : mtx h A n m x -> (forall i j, (i < n)%nat -> (j < m)%nat -> x i j = y i j) -> mtx h A n m y.
Proof. intros (L & V) E. split; [auto |]. intros i j Hi Hj. rewrite V, E; auto. Qed.

Lemma abs_one x : Rabs x = 1 -> x * x = 1.
Proof. unfold Rabs. destruct (Rcase_abs x); intros; nra. Qed.
Lemma min_scale m x y : 0 <= m -> Rmin (m * x) (m * y) = m * Rmin x y.
Proof. intros. unfold Rmin. destruct (Rle_dec (m * x) _), (Rle_dec x y); nra. Qed.

(** ** From the shifted and scaled matrix back to the matrix *)
Section Scale2.
Variables (a c : nat -> R) (t m r : R).
Hypothesis E : forall i, (i < 3)%nat -> a i = m * c i + if (i <? 2)%nat then t else 0.
Hypothesis tr : c 1%nat = - c 0%nat.
Hypothesis Hm : 0 <= m.
Hypothesis Hr : 0 <= r.
Hypothesis Er : r * r = c 2%nat * c 2%nat + c 0%nat * c 0%nat.
Let l (i : nat) := (if (i =? 1)%nat then r else - r) * m + t.
Lemma scale_eigenvalues2 : eigenvalues 2 (dense 2 a) l.
Proof.
  assert (E0 := @E 0%nat ltac:(lia)). assert (E1 := @E 1%nat ltac:(lia)). assert (E2 := @E 2%nat ltac:(lia)). cbn in E0, E1, E2. split.
  - intros x. unfold characteristic, leibniz, total, product, dense, voigt, l. cbn. rewrite E0, E1, E2, tr.
    transitivity ((x - t) * (x - t) - m * m * (c 2%nat * c 2%nat + c 0%nat * c 0%nat)); [ring | rewrite <- Er; ring].
  - intros i j H. assert (0 <= r * m) by (apply Rmult_le_pos; auto).
    destruct i as [| [| i]]; destruct j as [| [| j]]; try lia; unfold l; cbn; lra.
Qed.
Lemma scale_eigenvectors2 p q : c 0%nat * p + c 2%nat * q = r * p -> c 2%nat * p + c 1%nat * q = r * q ->
  forall i, (i < 2)%nat -> eigenvector 2 (dense 2 a) (l i) (fun j => match i, j with O, O => - q | O, _ => p | _, O => p | _, _ => q end).
Proof.
  intros P Q i Hi j Hj.
  assert (E0 := @E 0%nat ltac:(lia)). assert (E1 := @E 1%nat ltac:(lia)). assert (E2 := @E 2%nat ltac:(lia)). cbn in E0, E1, E2.
  destruct i as [| [| i]]; [| | lia]; (destruct j as [| [| j]]; [| | lia]); unfold dense, voigt, l; cbn; rewrite ?E0, ?E1, ?E2; rewrite tr in *.
  - transitivity (m * (c 2%nat * p - c 0%nat * q) - t * q); [ring |]. replace (c 2%nat * p - c 0%nat * q) with (r * q) by lra. ring.
  - transitivity (- (m * (c 0%nat * p + c 2%nat * q)) + t * p); [ring |]. rewrite P. ring.
  - transitivity (m * (c 0%nat * p + c 2%nat * q) + t * p); [ring |]. rewrite P. ring.
  - transitivity (m * (c 2%nat * p + - c 0%nat * q) + t * q); [ring |]. rewrite Q. ring.
Qed.
End Scale2.

Section Scale3.
Variables (a c l : nat -> R) (t m : R).
Hypothesis E : forall i, (i < 6)%nat -> a i = m * c i + if (i <? 3)%nat then t else 0.
Hypothesis tr : c 2%nat = - c 0%nat - c 1%nat.
Hypothesis Hm : 0 <= m.
Hypothesis sum0 : l 0%nat + l 1%nat + l 2%nat = 0.
Hypothesis pairs : l 0%nat * l 1%nat + l 0%nat * l 2%nat + l 1%nat * l 2%nat = - 3 * qof c.
Hypothesis prod : l 0%nat * l 1%nat * l 2%nat = dof c.
Hypothesis le01 : l 0%nat <= l 1%nat.
Hypothesis le12 : l 1%nat <= l 2%nat.
Let L (i : nat) := m * l i + t.
Lemma scale_eigenvalues3 : eigenvalues 3 (dense 3 a) L.
Proof.
  assert (E0 := @E 0%nat ltac:(lia)). assert (E1 := @E 1%nat ltac:(lia)). assert (E2 := @E 2%nat ltac:(lia)).
  assert (E3 := @E 3%nat ltac:(lia)). assert (E4 := @E 4%nat ltac:(lia)). assert (E5 := @E 5%nat ltac:(lia)). cbn in E0, E1, E2, E3, E4, E5. split.
  - intros x. unfold characteristic, leibniz, total, product, dense, voigt, L. cbn. rewrite E0, E1, E2, E3, E4, E5.
    set (y := x - t). replace x with (y + t) by (unfold y; ring).
    transitivity (y * y * y - m * m * (3 * qof c) * y - m * m * m * dof c); [unfold qof, dof; rewrite tr; field |].
    rewrite <- prod. replace (3 * qof c) with (- (l 0%nat * l 1%nat + l 0%nat * l 2%nat + l 1%nat * l 2%nat)) by lra.
    transitivity (y * y * y - m * (l 0%nat + l 1%nat + l 2%nat) * (y * y) +
      m * m * (l 0%nat * l 1%nat + l 0%nat * l 2%nat + l 1%nat * l 2%nat) * y - m * m * m * (l 0%nat * l 1%nat * l 2%nat)); [rewrite sum0; ring | ring].
  - intros i j H. assert (l i <= l j) by (destruct i as [| [| [| i]]]; destruct j as [| [| [| j]]]; try lia; lra).
    unfold L. assert (m * l i <= m * l j) by (apply Rmult_le_compat_l; auto). lra.
Qed.
Lemma scale_residual i w k : (k < 3)%nat -> residual 3 (dense 3 a) (L i) w k = m * (apply3 (dense 3 c) w k - l i * w k).
Proof.
  intros Hk. assert (E0 := @E 0%nat ltac:(lia)). assert (E1 := @E 1%nat ltac:(lia)). assert (E2 := @E 2%nat ltac:(lia)).
  assert (E3 := @E 3%nat ltac:(lia)). assert (E4 := @E 4%nat ltac:(lia)). assert (E5 := @E 5%nat ltac:(lia)). cbn in E0, E1, E2, E3, E4, E5.
  destruct k as [| [| [| k]]]; [| | | lia]; unfold residual, apply3, dot, dense, voigt, L; cbn; rewrite ?E0, ?E1, ?E2, ?E3, ?E4, ?E5; ring.
Qed.
Lemma scale_error i w : error2 3 (dense 3 a) (L i) w = m ^ 2 * off (dense 3 c) (l i) w.
Proof. unfold error2, sum, total. cbn [map seq fold_left]. rewrite !scale_residual by lia. unfold off, dot. cbn [reals add]. ring. Qed.
Lemma scale_exact i w : off (dense 3 c) (l i) w = 0 -> eigenvector 3 (dense 3 a) (L i) w.
Proof.
  intros Z k Hk. assert (Z' : off (dense 3 c) (l i) w <= 0) by lra. pose proof (off_zero _ _ _ Z' k Hk) as H.
  pose proof (scale_residual i w Hk) as R. rewrite H in R. unfold residual in R. lra.
Qed.
End Scale3.

(** ** The theorems *)
Section Theorems.
Variable eps : R. (* NumericLimits< FloatingPoint >::epsilon *)
Variable chk : bool. (* LVARRAY_BOUNDS_CHECK *)
Notation memory := (list (option (option R))).
Notation fl := (rfloating eps).

Theorem C58_eigenvalues2 (h : memory) (E A : vref) (a : nat -> R) :
  vdst h E 2 -> vec h A 3 (some a) -> apart (vslots E 2) (vslots A 3) ->
  exists h' l, symEigenvalues2 rarith fl chk E A h = Ok (h', tt) /\ vec h' E 2 (some l) /\
    eigenvalues 2 (dense 2 a) l /\ only (vslots E 2) h h'.
Proof.
  intros HE HA D. destruct (symEigenvalues2_ok rarith fl chk HE HA D) as ([h' []] & R & V & O).
  destruct (@shifted_some eps 2 a) as (t & m & c & Et & Em & Es & Hm & Ea & Tr & _); auto.
  cbn in Tr. assert (Tr' : c 1%nat = - c 0%nat) by lra. destruct (@roots2_some eps c Tr') as (r & Hr & Er & Eq).
  exists h', (fun i => (if (i =? 1)%nat then r else - r) * m + t). split; [exact R | split; [| split; [| exact O]]].
  - eapply vec_ext; [exact V |]. intros i Hi. rewrite Es, Et, Em, Eq. reflexivity.
  - apply scale_eigenvalues2 with c; auto.
Qed.

Theorem C58_eigenvalues3 (h : memory) (E A : vref) (a : nat -> R) :
  vdst h E 3 -> vec h A 6 (some a) -> apart (vslots E 3) (vslots A 6) ->
  exists h' l, symEigenvalues3 rarith fl chk E A h = Ok (h', tt) /\ vec h' E 3 (some l) /\
    eigenvalues 3 (dense 3 a) l /\ only (vslots E 3) h h'.
Proof.
  intros HE HA D. destruct (symEigenvalues3_ok rarith fl chk HE HA D) as ([h' []] & R & V & O).
  destruct (@shifted_some eps 3 a) as (t & m & c & Et & Em & Es & Hm & Ea & Tr & _); auto.
  cbn in Tr. assert (Tr' : c 2%nat = - c 0%nat - c 1%nat) by lra.
  destruct (@roots3_some eps c Tr') as (l & Eq & S & P & Q & L1 & L2).
  exists h', (fun i => m * l i + t). split; [exact R | split; [| split; [| exact O]]].
  - eapply vec_ext; [exact V |]. intros i Hi. rewrite Es, Et, Em, Eq. reflexivity.
  - apply scale_eigenvalues3 with c; auto.
Qed.

Theorem C58_eigenvectors2 (h : memory) (E A : vref) (W : mref) (a : nat -> R) : 0 <= eps <= 1 ->
  vdst h E 2 -> mdst h W 2 2 -> vec h A 3 (some a) ->
  apart (vslots E 2) (vslots A 3) -> apart (vslots E 2) (mslots W 2 2) -> apart (mslots W 2 2) (vslots A 3) ->
  exists h' l v, symEigenvectors2 rarith fl chk E W A h = Ok (h', tt) /\ vec h' E 2 (some l) /\ mtx h' W 2 2 (some2 v) /\
    eigenvalues 2 (dense 2 a) l /\ orthonormal 2 v /\ (forall i, (i < 2)%nat -> eigenvector 2 (dense 2 a) (l i) (v i)) /\
    only (fun s => vslots E 2 s \/ mslots W 2 2 s) h h'.
Proof.
  intros Heps HE HW HA D1 D2 D3. destruct (symEigenvectors2_ok rarith fl chk HE HW HA D1 D2 D3) as ([h' []] & R & V & M & O).
  destruct (@shifted_some eps 2 a) as (t & m & c & Et & Em & Es & Hm & Ea & Tr & Z0 & Z1); auto.
  cbn in Tr. assert (Tr' : c 1%nat = - c 0%nat) by lra. destruct (@roots2_some eps c Tr') as (r & Hr & Er & Eq).
  rewrite Es in M.
  set (l := fun i => (if (i =? 1)%nat then r else - r) * m + t).
  assert (Fst : forall v, mtx h' W 2 2 (some2 v) -> orthonormal 2 v -> (forall i, (i < 2)%nat -> eigenvector 2 (dense 2 a) (l i) (v i)) ->
    exists h' l v, symEigenvectors2 rarith fl chk E W A h = Ok (h', tt) /\ vec h' E 2 (some l) /\ mtx h' W 2 2 (some2 v) /\
    eigenvalues 2 (dense 2 a) l /\ orthonormal 2 v /\ (forall i, (i < 2)%nat -> eigenvector 2 (dense 2 a) (l i) (v i)) /\
    only (fun s => vslots E 2 s \/ mslots W 2 2 s) h h').
  { intros v Mv Ov Ev. exists h', l, v. split; [exact R | split; [| split; [exact Mv | split; [| auto]]]].
    - eapply vec_ext; [exact V |]. intros i Hi. rewrite Es, Et, Em, Eq. reflexivity.
    - apply scale_eigenvalues2 with c; auto. }
  assert (Diff : sub rarith (roots2 rarith fl (some c) 1) (roots2 rarith fl (some c) 0) = Some (r - - r)) by (rewrite Eq; reflexivity).
  destruct (Req_dec m 0) as [M0 | M0].
  - (* a multiple of the identity *)
    assert (r = 0).
    { specialize (Z0 M0). rewrite (Z0 0%nat), (Z0 2%nat) in Er by (cbn; lia). nra. }
    apply Fst with (v := kronecker reals).
    + eapply mtx_ext; [exact M |]. intros i j Hi Hj. unfold vectors_of_2. cbv zeta. rewrite Diff. change (fle fl) with rle.
      change (epsilon fl) with (Some eps). rewrite rle_true by lra. unfold kronecker. destruct (i =? j)%nat; reflexivity.
    + intros i j Hi Hj. destruct i as [| [| i]]; [| | lia]; (destruct j as [| [| j]]; [| | lia]); cbn; ring.
    + intros i Hi j Hj. assert (E0 := Ea 0%nat ltac:(cbn; lia)). assert (E1 := Ea 1%nat ltac:(cbn; lia)). assert (E2 := Ea 2%nat ltac:(cbn; lia)).
      cbn in E0, E1, E2. unfold l. rewrite M0 in *.
      destruct i as [| [| i]]; [| | lia]; (destruct j as [| [| j]]; [| | lia]); unfold dense, voigt; cbn; rewrite ?E0, ?E1, ?E2; ring.
  - assert (Pr : 1 <= r).
    { destruct (Z1 M0) as (i & Hi & Ai). assert (c i * c i = 1) by now apply abs_one.
      cbn in Hi. assert (1 <= r * r) by (rewrite Er; destruct i as [| [| [| i]]]; [| | | lia]; rewrite ?Tr' in *; nra). nra. }
    destruct (@vectors2_some eps c r Tr' ltac:(lra) Er) as (p & q & Ev & N & P1 & P2).
    apply Fst with (v := fun i j => match i, j with O, O => - q | O, _ => p | _, O => p | _, _ => q end).
    + eapply mtx_ext; [exact M |]. intros i j Hi Hj. unfold vectors_of_2. cbv zeta. rewrite Diff. change (fle fl) with rle.
      change (epsilon fl) with (Some eps). rewrite rle_false by lra. rewrite Eq. cbn [Nat.eqb]. change (opp rarith (Some r)) with (Some (- r)). apply Ev.
    + intros i j Hi Hj. destruct i as [| [| i]]; [| | lia]; (destruct j as [| [| j]]; [| | lia]); cbn; lra.
    + apply scale_eigenvectors2 with c; auto.
Qed.

Theorem C58_eigenvectors3 (h : memory) (E A : vref) (W : mref) (a : nat -> R) : 0 <= eps <= 1 ->
  vdst h E 3 -> mdst h W 3 3 -> vec h A 6 (some a) ->
  apart (vslots E 3) (vslots A 6) -> apart (vslots E 3) (mslots W 3 3) -> apart (mslots W 3 3) (vslots A 6) ->
  exists h' l v, symEigenvectors3 rarith fl chk E W A h = Ok (h', tt) /\ vec h' E 3 (some l) /\ mtx h' W 3 3 (some2 v) /\
    eigenvalues 3 (dense 3 a) l /\ orthonormal 3 v /\
    (let gap := Rmin (l 1%nat - l 0%nat) (l 2%nat - l 1%nat) in
     (2 * eps * (l 2%nat - l 0%nat) < gap -> forall i, (i < 3)%nat -> eigenvector 3 (dense 3 a) (l i) (v i)) /\
     (forall i, (i < 3)%nat -> error2 3 (dense 3 a) (l i) (v i) <= gap ^ 2)) /\
    (if Rlt_dec (l 1%nat - l 0%nat) (l 2%nat - l 1%nat)
     then eigenvector 3 (dense 3 a) (l 2%nat) (v 2%nat) else eigenvector 3 (dense 3 a) (l 0%nat) (v 0%nat)) /\
    only (fun s => vslots E 3 s \/ mslots W 3 3 s) h h'.
Proof.
  intros Heps HE HW HA D1 D2 D3. destruct (symEigenvectors3_ok rarith fl chk HE HW HA D1 D2 D3) as ([h' []] & R & V & M & O).
  destruct (@shifted_some eps 3 a) as (t & m & c & Et & Em & Es & Hm & Ea & Tr & Z0 & Z1); auto.
  cbn in Tr. assert (Tr' : c 2%nat = - c 0%nat - c 1%nat) by lra.
  destruct (@roots3_some eps c Tr') as (k & Eq & S & P & Q & L1 & L2).
  rewrite Es in M. set (l := fun i => m * k i + t).
  assert (Diff : sub rarith (roots3 rarith fl (some c) 2) (roots3 rarith fl (some c) 0) = Some (k 2%nat - k 0%nat)) by (rewrite Eq; reflexivity).
  assert (Vl : vec h' E 3 (some l)) by (eapply vec_ext; [exact V |]; intros i Hi; rewrite Es, Et, Em, Eq; reflexivity).
  assert (El : eigenvalues 3 (dense 3 a) l) by (apply scale_eigenvalues3 with c; auto).
  pose proof (@scale_error a c k t m Ea) as Err. pose proof (@scale_exact a c k t m Ea) as Exact.
  destruct (Req_dec m 0) as [M0 | M0].
  - (* a multiple of the identity *)
    exists h', l, (kronecker reals). split; [exact R | split; [exact Vl | split; [| split; [exact El |]]]].
    { eapply mtx_ext; [exact M |]. intros i j Hi Hj. unfold vectors_of_3. cbv zeta. rewrite Diff. change (fle fl) with rle.
      change (epsilon fl) with (Some eps). rewrite rle_true; [unfold kronecker; destruct (i =? j)%nat; reflexivity |].
      assert (Zq : qof c = 0) by (unfold qof; rewrite !(Z0 M0) by (cbn; lia); field).
      rewrite Zq in P. assert (k 2%nat - k 0%nat = 0); [| lra]. replace (k 1%nat) with (- k 0%nat - k 2%nat) in * by lra. nra. }
    split.
    { intros i j Hi Hj. destruct i as [| [| [| i]]]; [| | | lia]; (destruct j as [| [| [| j]]]; [| | | lia]); cbn; ring. }
    assert (Ex : forall i, (i < 3)%nat -> eigenvector 3 (dense 3 a) (l i) (kronecker reals i)).
    { intros i Hi. apply Exact. unfold off, apply3, dot, dense, voigt. cbn. rewrite !(Z0 M0) by (cbn; lia).
      assert (k i = 0).
      { assert (Zq : qof c = 0) by (unfold qof; rewrite !(Z0 M0) by (cbn; lia); field). rewrite Zq in P.
        assert (k 0%nat = 0 /\ k 1%nat = 0 /\ k 2%nat = 0) as (A0 & A1 & A2).
        { replace (k 2%nat) with (- k 0%nat - k 1%nat) in * by lra. assert (k 0%nat = 0) by nra. assert (k 1%nat = 0) by nra. lra. }
        destruct i as [| [| [| i]]]; [auto | auto | auto | lia]. }
      rewrite H. ring. }
    split; [| split; [| exact O]].
    + cbv zeta. split; [auto |]. intros i Hi. unfold l. rewrite Err, M0.
      replace (0 ^ 2 * off (dense 3 c) (k i) (kronecker reals i)) with 0 by ring. apply pow2_ge_0.
    + destruct (Rlt_dec _ _); apply Ex; lia.
  - assert (Pm : 0 < m) by lra.
    assert (Sp : 1 < k 2%nat - k 0%nat).
    { assert (Hq : 1 <= 6 * qof c).
      { destruct (Z1 M0) as (i & Hi & Ai). assert (Ci : c i * c i = 1) by now apply abs_one.
        rewrite <- Ci. unfold qof. rewrite Tr'. apply entry_le_q. rewrite <- Tr'. cbn in Hi.
        destruct i as [| [| [| [| [| [| i]]]]]]; tauto || lia. }
      pose proof (@spread (k 0%nat) (k 1%nat) (k 2%nat) (qof c) S P L1 L2). nra. }
    destruct (@vectors3_some eps c Tr' k S P Q L1 L2 ltac:(lra) ltac:(lra)) as (v & Ev & Fr & Bd & Ex & Md).
    exists h', l, v. split; [exact R | split; [exact Vl | split; [| split; [exact El |]]]].
    { eapply mtx_ext; [exact M |]. intros i j Hi Hj. unfold vectors_of_3. cbv zeta. rewrite Diff. change (fle fl) with rle.
      change (epsilon fl) with (Some eps). rewrite rle_false by lra. rewrite Eq. apply Ev; auto. }
    assert (G : Rmin (l 1%nat - l 0%nat) (l 2%nat - l 1%nat) = m * Rmin (k 1%nat - k 0%nat) (k 2%nat - k 1%nat)).
    { unfold l. replace (m * k 1%nat + t - (m * k 0%nat + t)) with (m * (k 1%nat - k 0%nat)) by ring.
      replace (m * k 2%nat + t - (m * k 1%nat + t)) with (m * (k 2%nat - k 1%nat)) by ring. apply min_scale; lra. }
    split.
    { destruct Fr as (F0 & F1 & F2 & F01 & F02 & F12). unfold dot in *.
      intros i j Hi Hj. destruct i as [| [| [| i]]]; [| | | lia]; (destruct j as [| [| [| j]]]; [| | | lia]); cbn; lra. }
    split; [| split; [| exact O]].
    + cbv zeta. rewrite G. split.
      * intros T i Hi. apply Exact. apply Ex; auto. apply Rmult_lt_reg_l with m; [auto |]. unfold l in T. lra.
      * intros i Hi. unfold l. rewrite Err, Rpow_mult_distr. apply Rmult_le_compat_l; [apply pow2_ge_0 | apply Bd; auto].
    + assert (C1 : l 1%nat - l 0%nat = m * (k 1%nat - k 0%nat)) by (unfold l; ring).
      assert (C2 : l 2%nat - l 1%nat = m * (k 2%nat - k 1%nat)) by (unfold l; ring). rewrite C1, C2.
      destruct (Rlt_dec (k 1%nat - k 0%nat) (k 2%nat - k 1%nat)) as [T | T]; destruct (Rlt_dec (m * (k 1%nat - k 0%nat)) _) as [T' | T']; try (apply Exact; exact Md).
      * exfalso. apply T'. apply Rmult_lt_compat_l; auto.
      * exfalso. apply T. apply Rmult_lt_reg_l with m; auto.
Qed.
End Theorems.

(** Eigenvalues that are close to each other but different are treated as equal: the rows that belong to them need not be eigenvectors.
    Here the eigenvalues are -1, 1/2 - eps and 1/2 + eps. *)
Definition close_matrix (eps : R) (i : nat) : R := match i with 0%nat => 1 / 2 | 1%nat => 1 / 2 | 2%nat => -1 | 5%nat => eps | _ => 0 end.

Theorem C58_close_eigenvectors_refuted (eps : R) (chk : bool) (h : list (option (option R))) (E A : vref) (W : mref) : 0 < eps <= 1 / 4 ->
  vdst h E 3 -> mdst h W 3 3 -> vec h A 6 (some (close_matrix eps)) ->
  apart (vslots E 3) (vslots A 6) -> apart (vslots E 3) (mslots W 3 3) -> apart (mslots W 3 3) (vslots A 6) ->
  exists h' l v, symEigenvectors3 rarith (rfloating eps) chk E W A h = Ok (h', tt) /\ vec h' E 3 (some l) /\ mtx h' W 3 3 (some2 v) /\
    eigenvalues 3 (dense 3 (close_matrix eps)) l /\ ~ eigenvector 3 (dense 3 (close_matrix eps)) (l 2%nat) (v 2%nat).
Proof.
  intros Heps HE HW HA D1 D2 D3. assert (He1 : 0 <= eps <= 1) by lra.
  destruct (C58_eigenvectors3 chk (close_matrix eps) He1 HE HW HA D1 D2 D3) as (h' & l & v & R & V & M & Ev & _).
  exists h', l, v. repeat (split; [assumption |]). intros N.
  destruct (symEigenvectors3_ok rarith (rfloating eps) chk HE HW HA D1 D2 D3) as ([h2 []] & R' & V' & M' & _).
  rewrite R in R'. injection R' as <-.
  set (a := close_matrix eps) in *.
  destruct (@shifted_some eps 3 a) as (t & m & c & Et & Em & Es & Hm & Ea & Tr & Z0 & Z1); auto.
  cbn in Tr. assert (Tr' : c 2%nat = - c 0%nat - c 1%nat) by lra.
  destruct (@roots3_some eps c Tr') as (k & Eq & S & P & Q & L1 & L2).
  assert (E0 := Ea 0%nat ltac:(cbn; lia)). assert (E1 := Ea 1%nat ltac:(cbn; lia)). assert (E2 := Ea 2%nat ltac:(cbn; lia)).
  assert (E3 := Ea 3%nat ltac:(cbn; lia)). assert (E4 := Ea 4%nat ltac:(cbn; lia)). assert (E5 := Ea 5%nat ltac:(cbn; lia)).
  cbn in E0, E1, E2, E3, E4, E5.
  assert (t = 0) by nra. subst t.
  assert (Pm : 0 < m). { destruct (Req_dec m 0) as [Z |]; [rewrite Z in E5; lra | lra]. }
  assert (El : forall i, (i < 3)%nat -> l i = m * k i).
  { intros i Hi. destruct V as (_ & V). destruct V' as (_ & V'). specialize (V i Hi). specialize (V' i Hi). rewrite V in V'.
    rewrite Es, Et, Em, Eq in V'. cbn in V'. injection V' as ->. ring. }
  destruct Ev as (Ch & So).
  assert (l 0%nat = -1 /\ l 1%nat = 1 / 2 - eps /\ l 2%nat = 1 / 2 + eps) as (K0 & K1 & K2).
  { assert (Ca := Ch (-1)). assert (Cb := Ch (1 / 2 - eps)). assert (Cc := Ch (1 / 2 + eps)).
    unfold characteristic, leibniz, total, product, dense, voigt in Ca, Cb, Cc. cbn in Ca, Cb, Cc.
    assert (l 0%nat <= l 1%nat) by (apply So; lia). assert (l 1%nat <= l 2%nat) by (apply So; lia).
    assert (Sl : l 0%nat + l 1%nat + l 2%nat = 0) by (rewrite !El by lia; rewrite <- Rmult_plus_distr_l, <- Rmult_plus_distr_l, S; ring).
    match type of Ca with ?x = ?y => assert (Za : (-1 - l 0%nat) * (-1 - l 1%nat) * (-1 - l 2%nat) = 0) by (transitivity y; [ring | rewrite <- Ca; field]) end.
    match type of Cb with ?x = ?y => assert (Zb : (1 / 2 - eps - l 0%nat) * (1 / 2 - eps - l 1%nat) * (1 / 2 - eps - l 2%nat) = 0) by (transitivity y; [ring | rewrite <- Cb; field]) end.
    match type of Cc with ?x = ?y => assert (Zc : (1 / 2 + eps - l 0%nat) * (1 / 2 + eps - l 1%nat) * (1 / 2 + eps - l 2%nat) = 0) by (transitivity y; [ring | rewrite <- Cc; field]) end.
    apply Rmult_integral in Za. apply Rmult_integral in Zb. apply Rmult_integral in Zc.
    destruct Za as [Za | Za]; [apply Rmult_integral in Za; destruct Za as [Za | Za] |];
    (destruct Zb as [Zb | Zb]; [apply Rmult_integral in Zb; destruct Zb as [Zb | Zb] |]);
    (destruct Zc as [Zc | Zc]; [apply Rmult_integral in Zc; destruct Zc as [Zc | Zc] |]); repeat split; lra. }
  rewrite El in K0, K1, K2 by lia.
  assert (G1 : m * (k 1%nat - k 0%nat) = 3 / 2 - eps) by lra. assert (G2 : m * (k 2%nat - k 1%nat) = 2 * eps) by lra.
  assert (G3 : m * (k 2%nat - k 0%nat) = 3 / 2 + eps) by lra.
  assert (M22 : forall j, (j < 3)%nat -> Some (v 2%nat j) = second_vector rarith (rfloating eps) (some c) (some k) (Some (k 2%nat - k 0%nat)) j /\
    most_distinct rarith (rfloating eps) (some k) = 0%nat).
  { intros j Hj. destruct M as (_ & M). destruct M' as (_ & M'). specialize (M 2%nat j ltac:(lia) Hj). specialize (M' 2%nat j ltac:(lia) Hj).
    rewrite M in M'. injection M' as M'. rewrite Es in M'. unfold vectors_of_3 in M'. cbv zeta in M'. rewrite Eq in M'.
    change (sub rarith (Some (k 2%nat)) (Some (k 0%nat))) with (Some (k 2%nat - k 0%nat)) in M'.
    assert (Md : most_distinct rarith (rfloating eps) (some k) = 0%nat).
    { unfold most_distinct. change (fgt (rfloating eps)) with rgt.
      change (rgt (sub rarith (Some (k 2%nat)) (Some (k 1%nat))) (sub rarith (Some (k 1%nat)) (Some (k 0%nat)))) with (rgt (Some (k 2%nat - k 1%nat)) (Some (k 1%nat - k 0%nat))).
      rewrite rgt_false; [reflexivity | nra]. }
    split; [| exact Md].
    assert (Sp : 1 < k 2%nat - k 0%nat).
    { assert (Hq : 1 <= 6 * qof c).
      { destruct (Z1 ltac:(lra)) as (i & Hi & Ai). assert (Ci : c i * c i = 1) by now apply abs_one.
        rewrite <- Ci. unfold qof. rewrite Tr'. apply entry_le_q. rewrite <- Tr'. cbn in Hi.
        destruct i as [| [| [| [| [| [| i]]]]]]; tauto || lia. }
      pose proof (@spread (k 0%nat) (k 1%nat) (k 2%nat) (qof c) S P L1 L2). nra. }
    change (fle (rfloating eps)) with rle in M'. change (epsilon (rfloating eps)) with (Some eps) in M'. rewrite rle_false in M' by lra.
    rewrite M'. unfold vectors3. cbv zeta. rewrite Md. reflexivity. }
  assert (N0 := N 0%nat ltac:(lia)). unfold dense, voigt in N0. cbn in N0.
  (* the row is a multiple of (2 eps, 3, 0) *)
  assert (exists s, s <> 0 /\ v 2%nat 0%nat = s * eps /\ v 2%nat 1%nat = s * (3 / 2) /\ v 2%nat 2%nat = 0) as (s & Ns & V0 & V1 & V2).
  { assert (Rw : forall j, (j < 3)%nat -> minus rarith (some c) (Some (k 0%nat)) (largest_row (rfloating eps) (minus rarith (some c) (Some (k 0%nat)))) j =
      Some (match j with 0%nat => eps / m | 1%nat => 3 / 2 / m | _ => 0 end)).
    { rewrite minus_some. unfold largest_row. change (fgt (rfloating eps)) with rgt. change (fabs (rfloating eps)) with (lift1 Rabs). cbn [lift1].
      assert (A0 : mm c (k 0%nat) 0%nat 0%nat = 3 / 2 / m) by (unfold mm, dense, voigt; cbn; apply Rmult_eq_reg_l with m; [field_simplify; lra | lra]).
      assert (A1 : mm c (k 0%nat) 1%nat 1%nat = 3 / 2 / m) by (unfold mm, dense, voigt; cbn; apply Rmult_eq_reg_l with m; [field_simplify; lra | lra]).
      assert (A2 : mm c (k 0%nat) 2%nat 2%nat = 0) by (unfold mm, dense, voigt; cbn; apply Rmult_eq_reg_l with m; lra).
      rewrite A0, A1, A2. rewrite rgt_false by lra. rewrite rgt_true.
      2: { rewrite Rabs_R0. apply Rabs_pos_lt. apply Rgt_not_eq. apply Rdiv_lt_0_compat; lra. }
      intros j Hj. destruct j as [| [| [| j]]]; [| | | lia].
      - f_equal. unfold mm, dense, voigt. cbn. apply Rmult_eq_reg_l with m; [field_simplify; lra | lra].
      - f_equal. exact A1.
      - f_equal. unfold mm, dense, voigt. cbn. apply Rmult_eq_reg_l with m; lra. }
    set (n2 := eps / m * (eps / m) + 3 / 2 / m * (3 / 2 / m) + 0 * 0).
    assert (Pn : 0 < n2). { assert (0 < 3 / 2 / m) by (apply Rdiv_lt_0_compat; lra). unfold n2. nra. }
    assert (Sv : forall j, (j < 3)%nat -> v 2%nat j = 1 / sqrt n2 * match j with 0%nat => eps / m | 1%nat => 3 / 2 / m | _ => 0 end).
    { intros j Hj. destruct (M22 j Hj) as (Ej & Md). unfold second_vector in Ej. cbv zeta in Ej. rewrite Md in Ej. change (2 - 0)%nat with 2%nat in Ej. cbv beta in Ej.
      assert (Cl : fle (rfloating eps) (fabs (rfloating eps) (sub rarith (Some (k 2%nat)) (Some (k 1%nat))))
        (mul rarith (mul rarith (number rarith 2) (epsilon (rfloating eps))) (Some (k 2%nat - k 0%nat))) = true).
      { change (rle (Some (Rabs (k 2%nat - k 1%nat))) (Some ((1 + 1) * eps * (k 2%nat - k 0%nat))) = true) || cbn. apply rle_true.
        rewrite Rabs_right by nra. apply Rmult_le_reg_l with m; [auto |]. rewrite G2.
        replace (m * ((1 + 1) * eps * (k 2%nat - k 0%nat))) with (2 * eps * (m * (k 2%nat - k 0%nat))) by ring. rewrite G3. nra. }
      match type of Ej with context [if ?b then _ else _] => change b with (fle (rfloating eps) (fabs (rfloating eps) (sub rarith (Some (k 2%nat)) (Some (k 1%nat))))
        (mul rarith (mul rarith (number rarith 2) (epsilon (rfloating eps))) (Some (k 2%nat - k 0%nat)))) in Ej end.
      rewrite Cl in Ej. unfold norm2, sum, total in Ej. cbn [map seq fold_left] in Ej. rewrite !Rw in Ej by lia.
      change (finvSqrt (rfloating eps)) with (fun x => rdiv (Some 1) (rsqrt x)) in Ej. cbn [add mul rarith lift2] in Ej. cbv beta in Ej. fold n2 in Ej.
      rewrite rsqrt_some in Ej by lra. rewrite rdiv_some in Ej. 2: { apply Rgt_not_eq. apply sqrt_lt_R0. auto. }
      cbn [lift2] in Ej. injection Ej as ->. reflexivity. }
    exists (1 / sqrt n2 / m). assert (0 < sqrt n2) by (apply sqrt_lt_R0; auto). split; [| split; [| split]].
    - apply Rgt_not_eq. apply Rdiv_lt_0_compat; [apply Rdiv_lt_0_compat; lra | auto].
    - rewrite Sv by lia. field. lra.
    - rewrite Sv by lia. field. lra.
    - rewrite Sv by lia. ring. }
  rewrite V0, V1, V2 in N0. rewrite El in N0 by lia. rewrite K2 in N0.
  assert (Z : s * (eps * (3 / 2 - eps)) = 0) by lra. apply Rmult_integral in Z. destruct Z as [Z | Z]; [auto |].
  apply Rmult_integral in Z. lra.
Qed.

(** ** The premises hold in concrete memories, and the values that follow *)
Section Cases.
Notation memory := (list (option (option R))).
Definition memory_of (n : nat) (x : list R) : memory := repeat None n ++ map (fun r => Some (Some r)) x.
Lemma memory_dst n x b k : (b + k <= n)%nat -> vdst (memory_of n x) (carray b k) k.
Proof. intros H. split; [reflexivity |]. cbn. split; [intros i Hi; unfold memory_of; rewrite app_length, repeat_length; lia | intros; lia]. Qed.
Lemma memory_mdst n x b k : (b + k * k <= n)%nat -> mdst (memory_of n x) (cmatrix b k k) k k.
Proof.
  intros H. split; [split; reflexivity |]. cbn. split; [intros i j Hi Hj; unfold memory_of; rewrite app_length, repeat_length; nia |].
  intros i j i' j' Hi Hj Hi' Hj' Q. assert (i = i') by (destruct (Nat.lt_trichotomy i i') as [|[|]]; nia). subst i'. split; [auto | lia].
Qed.
Lemma memory_vec n x d : vec (memory_of n x) (carray n (length x)) (length x) (some (fun i => nth i x d)).
Proof.
  split; [reflexivity |]. intros i Hi. cbn. unfold memory_of. rewrite nth_error_app2, repeat_length by (rewrite repeat_length; lia).
  replace (n + i - n)%nat with i by lia. rewrite nth_error_map, (nth_error_nth' x d Hi). reflexivity.
Qed.

Example C58_case2 : exists h' v, symEigenvectors2 rarith (rfloating (1 / 8)) true (carray 0 2) (cmatrix 2 2 2) (carray 6 3) (memory_of 6 [2; 2; 1]) = Ok (h', tt) /\
  nth_error h' 0 = Some (Some (Some 1)) /\ nth_error h' 1 = Some (Some (Some 3)) /\ mtx h' (cmatrix 2 2 2) 2 2 (some2 v) /\
  v 0%nat 0%nat = - v 0%nat 1%nat /\ v 1%nat 0%nat = v 1%nat 1%nat /\ 2 * (v 1%nat 0%nat * v 1%nat 0%nat) = 1.
Proof.
  destruct (@C58_eigenvectors2 (1 / 8) true (memory_of 6 [2; 2; 1]) (carray 0 2) (carray 6 3) (cmatrix 2 2 2) (fun i => nth i [2; 2; 1] 0))
    as (h' & l & v & R & (_ & V) & M & (Ch & So) & N & Ev & _).
  - lra.
  - apply memory_dst. lia.
  - apply memory_mdst. lia.
  - apply (@memory_vec 6 [2; 2; 1] 0).
  - intros s (i & Hi & <-) (j & Hj & Q). cbn in Q. lia.
  - intros s (i & Hi & <-) (j & k & Hj & Hk & Q). cbn in Q. lia.
  - intros s (i & k & Hi & Hk & <-) (j & Hj & Q). cbn in Q. lia.
  - exists h', v.
    assert (l 0%nat = 1 /\ l 1%nat = 3) as (K0 & K1).
    { assert (Ca := Ch 1). assert (Cb := Ch 3). unfold characteristic, leibniz, total, product, dense, voigt in Ca, Cb. cbn in Ca, Cb.
      assert (l 0%nat <= l 1%nat) by (apply So; lia). ring_simplify in Ca. ring_simplify in Cb. split; nra. }
    assert (V0 := V 0%nat ltac:(lia)). assert (V1 := V 1%nat ltac:(lia)). rewrite K0 in V0. rewrite K1 in V1.
    split; [exact R | split; [exact V0 | split; [exact V1 | split; [exact M |]]]].
    assert (E0 := Ev 0%nat ltac:(lia) 0%nat ltac:(lia)). assert (E1 := Ev 1%nat ltac:(lia) 0%nat ltac:(lia)).
    assert (N1 := N 1%nat 1%nat ltac:(lia) ltac:(lia)).
    unfold dense, voigt in E0, E1. cbn in E0, E1, N1. rewrite K0 in E0. rewrite K1 in E1. repeat split; nra.
Qed.

Example C58_case3 : exists h' l v, symEigenvectors3 rarith (rfloating (1 / 8)) true (carray 0 3) (cmatrix 3 3 3) (carray 12 6) (memory_of 12 [3; 1; 2; 0; 0; 0]) = Ok (h', tt) /\
  nth_error h' 0 = Some (Some (Some 1)) /\ nth_error h' 1 = Some (Some (Some 2)) /\ nth_error h' 2 = Some (Some (Some 3)) /\
  mtx h' (cmatrix 3 3 3) 3 3 (some2 v) /\ (forall i, (i < 3)%nat -> eigenvector 3 (dense 3 (fun i => nth i [3; 1; 2; 0; 0; 0] 0)) (l i) (v i)) /\
  v 0%nat 1%nat * v 0%nat 1%nat = 1.
Proof.
  destruct (@C58_eigenvectors3 (1 / 8) true (memory_of 12 [3; 1; 2; 0; 0; 0]) (carray 0 3) (carray 12 6) (cmatrix 3 3 3) (fun i => nth i [3; 1; 2; 0; 0; 0] 0))
    as (h' & l & v & R & (_ & V) & M & (Ch & So) & N & (Ex & _) & _).
  - lra.
  - apply memory_dst. lia.
  - apply memory_mdst. lia.
  - apply (@memory_vec 12 [3; 1; 2; 0; 0; 0] 0).
  - intros s (i & Hi & <-) (j & Hj & Q). cbn in Q. lia.
  - intros s (i & Hi & <-) (j & k & Hj & Hk & Q). cbn in Q. lia.
  - intros s (i & k & Hi & Hk & <-) (j & Hj & Q). cbn in Q. lia.
  - exists h', l, v.
    assert (l 0%nat = 1 /\ l 1%nat = 2 /\ l 2%nat = 3) as (K0 & K1 & K2).
    { assert (Ca := Ch 1). assert (Cb := Ch 2). assert (Cc := Ch 3). unfold characteristic, leibniz, total, product, dense, voigt in Ca, Cb, Cc. cbn in Ca, Cb, Cc.
      assert (l 0%nat <= l 1%nat) by (apply So; lia). assert (l 1%nat <= l 2%nat) by (apply So; lia).
      match type of Ca with ?x = ?y => assert (Za : (1 - l 0%nat) * (1 - l 1%nat) * (1 - l 2%nat) = 0) by (transitivity y; [ring | rewrite <- Ca; ring]) end.
      match type of Cb with ?x = ?y => assert (Zb : (2 - l 0%nat) * (2 - l 1%nat) * (2 - l 2%nat) = 0) by (transitivity y; [ring | rewrite <- Cb; ring]) end.
      match type of Cc with ?x = ?y => assert (Zc : (3 - l 0%nat) * (3 - l 1%nat) * (3 - l 2%nat) = 0) by (transitivity y; [ring | rewrite <- Cc; ring]) end.
      apply Rmult_integral in Za. apply Rmult_integral in Zb. apply Rmult_integral in Zc.
      destruct Za as [Za | Za]; [apply Rmult_integral in Za; destruct Za as [Za | Za] |];
      (destruct Zb as [Zb | Zb]; [apply Rmult_integral in Zb; destruct Zb as [Zb | Zb] |]);
      (destruct Zc as [Zc | Zc]; [apply Rmult_integral in Zc; destruct Zc as [Zc | Zc] |]); repeat split; lra. }
    assert (V0 := V 0%nat ltac:(lia)). assert (V1 := V 1%nat ltac:(lia)). assert (V2 := V 2%nat ltac:(lia)). rewrite K0 in V0. rewrite K1 in V1. rewrite K2 in V2.
    cbv zeta in Ex. rewrite K0, K1, K2 in Ex. specialize (Ex ltac:(rewrite Rmin_left; lra)).
    split; [exact R | split; [exact V0 | split; [exact V1 | split; [exact V2 | split; [exact M | split; [exact Ex |]]]]]].
    assert (E0 := Ex 0%nat ltac:(lia) 0%nat ltac:(lia)). assert (E2 := Ex 0%nat ltac:(lia) 2%nat ltac:(lia)).
    assert (N0 := N 0%nat 0%nat ltac:(lia) ltac:(lia)).
    unfold dense, voigt in E0, E2. cbn in E0, E2, N0. rewrite K0 in E0, E2.
    assert (v 0%nat 0%nat = 0) by lra. assert (v 0%nat 2%nat = 0) by lra. rewrite H, H0 in N0. lra.
Qed.
End Cases.
Print Assumptions C58_eigenvalues2.
Print Assumptions C58_eigenvalues3.
Print Assumptions C58_eigenvectors2.
Print Assumptions C58_eigenvectors3.
Print Assumptions C58_close_eigenvectors_refuted.
