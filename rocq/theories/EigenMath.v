(** Facts about real numbers behind the eigenvalue formulas. *)
From Coq Require Import Reals Lra Psatz.
Local Open Scope R_scope.

(** ** The roots of x^3 - 3 q x - d *)
Section Invariants.
Variables a0 a1 a3 a4 a5 : R.
Let a2 := - a0 - a1.
Let q := (a2 * a2 - a0 * a1 + a3 * a3 + a4 * a4 + a5 * a5) / 3.
Let d := a0 * a1 * a2 + a5 * a4 * a3 * 2 - a0 * a3 * a3 - a1 * a4 * a4 - a2 * a5 * a5.
Lemma q_nonneg : 0 <= q.
Proof. unfold q, a2. nra. Qed.
Lemma entry_le_q x : x = a0 \/ x = a1 \/ x = a2 \/ x = a3 \/ x = a4 \/ x = a5 -> x * x <= 6 * q.
Proof.
  unfold q, a2. intros [-> | [-> | [-> | [-> | [-> | ->]]]]];
  pose proof (Rle_0_sqr a0) as S0; pose proof (Rle_0_sqr a1) as S1; pose proof (Rle_0_sqr (a0 + a1)) as S2; pose proof (Rle_0_sqr a3);
  pose proof (Rle_0_sqr a4); pose proof (Rle_0_sqr a5); unfold Rsqr in *; nra.
Qed.
Lemma det_bound : d * d <= 4 * (q * q * q).
Proof.
  set (t := 6 * q).
  assert (Id : t * (t * t * t / 6 - 9 * (d * d)) =
    (t * (a0*a0 + a5*a5 + a4*a4) - t * t / 3 - 3 * d * a0) ^ 2 +
    (t * (a5*a5 + a1*a1 + a3*a3) - t * t / 3 - 3 * d * a1) ^ 2 +
    (t * (a4*a4 + a3*a3 + a2*a2) - t * t / 3 - 3 * d * a2) ^ 2 +
    2 * (t * (a5*a4 + a1*a3 + a3*a2) - 3 * d * a3) ^ 2 +
    2 * (t * (a0*a4 + a5*a3 + a4*a2) - 3 * d * a4) ^ 2 +
    2 * (t * (a0*a5 + a5*a1 + a4*a3) - 3 * d * a5) ^ 2) by (unfold t, q, d, a2; field).
  destruct (Req_dec q 0) as [Z | N].
  - assert (E : a0 * a0 <= 0 /\ a1 * a1 <= 0 /\ a3 * a3 <= 0 /\ a4 * a4 <= 0 /\ a5 * a5 <= 0)
      by (repeat split; rewrite <- (Rmult_0_r 6), <- Z; apply entry_le_q; tauto).
    assert (a0 = 0) by nra. assert (a1 = 0) by nra. assert (a3 = 0) by nra. assert (a4 = 0) by nra. assert (a5 = 0) by nra.
    unfold d, q, a2. subst a0 a1 a3 a4 a5. lra.
  - assert (P : 0 < t) by (pose proof q_nonneg; unfold t; lra).
    assert (G : 0 <= t * (t * t * t / 6 - 9 * (d * d))).
    { rewrite Id. repeat apply Rplus_le_le_0_compat; first [apply pow2_ge_0 | apply Rmult_le_pos; [lra | apply pow2_ge_0]]. }
    assert (0 <= t * t * t / 6 - 9 * (d * d)).
    { apply Rmult_le_reg_l with t; [exact P |]. lra. }
    unfold t in *. lra.
Qed.
End Invariants.

Lemma cos_triple x : cos (3 * x) = 4 * (cos x * cos x * cos x) - 3 * cos x.
Proof.
  replace (3 * x) with (2 * x + x) by ring. rewrite cos_plus, cos_2a, sin_2a.
  pose proof (sin2_cos2 x) as H. unfold Rsqr in H.
  replace (2 * sin x * cos x * sin x) with (2 * cos x * (sin x * sin x)) by ring.
  replace (sin x * sin x) with (1 - cos x * cos x) by lra. ring.
Qed.

(** The trigonometric solution, for an angle between 0 and pi / 3. *)
Section Roots.
Variables p d t : R.
Hypothesis Hp : 0 <= p.
Hypothesis Ht : 0 <= t <= PI / 3.
Hypothesis Hd : d = 2 * (p * p * p) * cos (3 * t).
Let l0 := - p * (cos t + sqrt 3 * sin t).
Let l1 := - p * (cos t - sqrt 3 * sin t).
Let l2 := 2 * p * cos t.
Lemma sqrt3 : sqrt 3 * sqrt 3 = 3.
Proof. apply sqrt_def. lra. Qed.
Lemma unit_angle : sin t * sin t = 1 - cos t * cos t.
Proof. pose proof (sin2_cos2 t) as H. unfold Rsqr in H. lra. Qed.
Lemma root_sum : l0 + l1 + l2 = 0.
Proof. unfold l0, l1, l2. ring. Qed.
Lemma root_pairs : l0 * l1 + l0 * l2 + l1 * l2 = - 3 * (p * p).
Proof.
  unfold l0, l1, l2.
  transitivity (p * p * (cos t * cos t - (sqrt 3 * sqrt 3) * (sin t * sin t) - 4 * (cos t * cos t))); [ring |].
  rewrite sqrt3, unit_angle. ring.
Qed.
Lemma root_product : l0 * l1 * l2 = d.
Proof.
  unfold l0, l1, l2. rewrite Hd, cos_triple.
  transitivity (2 * p * p * p * cos t * (cos t * cos t - (sqrt 3 * sqrt 3) * (sin t * sin t))); [ring |].
  rewrite sqrt3, unit_angle. ring.
Qed.
Lemma root_order : l0 <= l1 /\ l1 <= l2.
Proof.
  assert (S3 : 0 <= sqrt 3) by apply sqrt_pos.
  assert (S : 0 <= sin t) by (pose proof PI_RGT_0; apply sin_ge_0; lra).
  assert (S' : 0 <= sin (PI / 3 - t)) by (pose proof PI_RGT_0; apply sin_ge_0; lra).
  split.
  - assert (0 <= p * (sqrt 3 * sin t)) by (repeat apply Rmult_le_pos; auto). unfold l0, l1. lra.
  - rewrite sin_minus, sin_PI3, cos_PI3 in S'.
    assert (H : 0 <= p * (2 * sqrt 3 * (sqrt 3 / 2 * cos t - 1 / 2 * sin t))) by (apply Rmult_le_pos; [auto | apply Rmult_le_pos; [lra | exact S']]).
    replace (2 * sqrt 3 * (sqrt 3 / 2 * cos t - 1 / 2 * sin t)) with ((sqrt 3 * sqrt 3) * cos t - sqrt 3 * sin t) in H by field.
    rewrite sqrt3 in H. unfold l1, l2. lra.
Qed.
End Roots.

Lemma third_of_acos x : -1 <= x <= 1 -> 0 <= acos x / 3 <= PI / 3 /\ cos (3 * (acos x / 3)) = x.
Proof.
  intros H. pose proof (acos_bound x). split; [lra |]. replace (3 * (acos x / 3)) with (acos x) by field. now apply cos_acos.
Qed.

(** The distance of the extreme roots. *)
Lemma spread l0 l1 l2 q : l0 + l1 + l2 = 0 -> l0 * l1 + l0 * l2 + l1 * l2 = - 3 * q -> l0 <= l1 -> l1 <= l2 -> 9 * q <= (l2 - l0) * (l2 - l0).
Proof.
  intros S P A B. assert (E : 18 * q = (l1 - l0) * (l1 - l0) + (l2 - l1) * (l2 - l1) + (l2 - l0) * (l2 - l0)).
  { replace l2 with (- l0 - l1) in * by lra. nra. }
  assert ((l1 - l0) * (l1 - l0) + (l2 - l1) * (l2 - l1) <= (l2 - l0) * (l2 - l0)).
  { assert (0 <= (l1 - l0) * (l2 - l1)) by (apply Rmult_le_pos; lra). nra. }
  lra.
Qed.
