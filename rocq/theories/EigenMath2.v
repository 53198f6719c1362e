(** Vectors of three real numbers: null vectors of a symmetric matrix of rank two, and orthonormal bases. *)
From Coq Require Import Reals Lra Psatz Arith Lia.
Local Open Scope R_scope.

Definition dot (x y : nat -> R) : R := x 0%nat * y 0%nat + x 1%nat * y 1%nat + x 2%nat * y 2%nat.
Definition rcross (x y : nat -> R) (i : nat) : R :=
  let j := (i + 1)%nat mod 3 in let k := (i + 2)%nat mod 3 in x j * y k - x k * y j.

Lemma dot_nonneg x : 0 <= dot x x.
Proof. unfold dot. nra. Qed.
Lemma dot_zero x : dot x x <= 0 -> x 0%nat = 0 /\ x 1%nat = 0 /\ x 2%nat = 0.
Proof. unfold dot. intros H. repeat split; nra. Qed.
Lemma dot_scale x s : dot (fun i => x i * s) (fun i => x i * s) = dot x x * (s * s).
Proof. unfold dot. ring. Qed.
Lemma root_unit a : 0 < a -> a * (1 / sqrt a * (1 / sqrt a)) = 1.
Proof.
  intros H. assert (S : 0 < sqrt a) by now apply sqrt_lt_R0. replace a with (sqrt a * sqrt a) at 1 by (apply sqrt_def; lra). field. lra.
Qed.

(** The cross products of the row with the largest diagonal entry with the other two rows do not both vanish. *)
Section Null.
Variables a b c d e f : R.
Hypothesis det : a * b * c + 2 * d * e * f - a * d * d - b * e * e - c * f * f = 0.
Hypothesis minors : 0 < a * b - f * f + (a * c - e * e) + (b * c - d * d).
Hypothesis Hb : Rabs b <= Rabs a.
Hypothesis Hc : Rabs c <= Rabs a.
Lemma null_diagonal : a <> 0.
Proof.
  intros ->. rewrite Rabs_R0 in *. assert (Rabs b = 0) by (pose proof (Rabs_pos b); lra). assert (Rabs c = 0) by (pose proof (Rabs_pos c); lra).
  assert (b = 0) by (destruct (Req_dec b 0) as [| N]; [auto | apply Rabs_no_R0 in N; lra]).
  assert (c = 0) by (destruct (Req_dec c 0) as [| N]; [auto | apply Rabs_no_R0 in N; lra]).
  subst b c. nra.
Qed.
Lemma null_candidates :
  0 < (f * d - e * b) ^ 2 + (e * f - a * d) ^ 2 + (a * b - f * f) ^ 2 \/
  0 < (f * c - e * d) ^ 2 + (e * e - a * c) ^ 2 + (a * d - f * e) ^ 2.
Proof.
  destruct (Rlt_dec 0 ((f * d - e * b) ^ 2 + (e * f - a * d) ^ 2 + (a * b - f * f) ^ 2)) as [? | N1]; [auto |].
  destruct (Rlt_dec 0 ((f * c - e * d) ^ 2 + (e * e - a * c) ^ 2 + (a * d - f * e) ^ 2)) as [? | N2]; [auto |].
  exfalso.
  pose proof (pow2_ge_0 (f * d - e * b)). pose proof (pow2_ge_0 (e * f - a * d)). pose proof (pow2_ge_0 (a * b - f * f)).
  pose proof (pow2_ge_0 (f * c - e * d)). pose proof (pow2_ge_0 (e * e - a * c)). pose proof (pow2_ge_0 (a * d - f * e)).
  assert (E1 : f * d - e * b = 0) by (apply Rsqr_0_uniq; rewrite Rsqr_pow2; lra).
  assert (E2 : a * b - f * f = 0) by (apply Rsqr_0_uniq; rewrite Rsqr_pow2; lra).
  assert (E3 : f * c - e * d = 0) by (apply Rsqr_0_uniq; rewrite Rsqr_pow2; lra).
  assert (E4 : e * e - a * c = 0) by (apply Rsqr_0_uniq; rewrite Rsqr_pow2; lra).
  assert (Z : a * (b * c - d * d) = 0).
  { transitivity ((a * b * c + 2 * d * e * f - a * d * d - b * e * e - c * f * f) + f * (f * c - e * d) - e * (f * d - e * b)); [ring |].
    rewrite det, E1, E3. ring. }
  apply Rmult_integral in Z. pose proof null_diagonal. destruct Z as [Z | Z]; [tauto | lra].
Qed.
End Null.

Section Matrix.
Variable m : nat -> nat -> R.
Hypothesis sym01 : m 1%nat 0%nat = m 0%nat 1%nat.
Hypothesis sym02 : m 2%nat 0%nat = m 0%nat 2%nat.
Hypothesis sym12 : m 2%nat 1%nat = m 1%nat 2%nat.
Definition mdet : R :=
  m 0%nat 0%nat * m 1%nat 1%nat * m 2%nat 2%nat + 2 * m 1%nat 2%nat * m 0%nat 2%nat * m 0%nat 1%nat -
  m 0%nat 0%nat * m 1%nat 2%nat * m 1%nat 2%nat - m 1%nat 1%nat * m 0%nat 2%nat * m 0%nat 2%nat - m 2%nat 2%nat * m 0%nat 1%nat * m 0%nat 1%nat.
Definition mminors : R :=
  m 0%nat 0%nat * m 1%nat 1%nat - m 0%nat 1%nat * m 0%nat 1%nat + (m 0%nat 0%nat * m 2%nat 2%nat - m 0%nat 2%nat * m 0%nat 2%nat) +
  (m 1%nat 1%nat * m 2%nat 2%nat - m 1%nat 2%nat * m 1%nat 2%nat).
Hypothesis singular : mdet = 0.
Hypothesis rank2 : 0 < mminors.
Variable r : nat.
Hypothesis Hr : (r < 3)%nat.
Hypothesis largest : forall i, (i < 3)%nat -> Rabs (m i i) <= Rabs (m r r).

Lemma largest_row_nonzero : 0 < dot (m r) (m r).
Proof.
  unfold mdet, mminors in *. assert (L0 := largest 0%nat ltac:(lia)). assert (L1 := largest 1%nat ltac:(lia)). assert (L2 := largest 2%nat ltac:(lia)).
  assert (m r r <> 0 /\ m r r * m r r <= dot (m r) (m r)) as (N & B).
  { destruct r as [| [| [| k]]]; [| | | lia]; (split; [| unfold dot; nra]).
    - apply null_diagonal with (m 1%nat 1%nat) (m 2%nat 2%nat) (m 1%nat 2%nat) (m 0%nat 2%nat) (m 0%nat 1%nat); auto; lra.
    - apply null_diagonal with (m 0%nat 0%nat) (m 2%nat 2%nat) (m 0%nat 2%nat) (m 1%nat 2%nat) (m 0%nat 1%nat); auto; lra.
    - apply null_diagonal with (m 0%nat 0%nat) (m 1%nat 1%nat) (m 0%nat 1%nat) (m 1%nat 2%nat) (m 0%nat 2%nat); auto; lra. }
  assert (0 < m r r * m r r) by nra. lra.
Qed.

Lemma candidates : 0 < dot (rcross (m r) (m ((r + 1)%nat mod 3))) (rcross (m r) (m ((r + 1)%nat mod 3))) \/
                   0 < dot (rcross (m r) (m ((r + 2)%nat mod 3))) (rcross (m r) (m ((r + 2)%nat mod 3))).
Proof.
  unfold mdet, mminors in *. assert (L0 := largest 0%nat ltac:(lia)). assert (L1 := largest 1%nat ltac:(lia)). assert (L2 := largest 2%nat ltac:(lia)).
  destruct r as [| [| [| k]]]; [| | | lia]; cbn [Nat.add Nat.modulo Nat.divmod fst snd Nat.sub]; unfold dot, rcross;
    cbn [Nat.add Nat.modulo Nat.divmod fst snd Nat.sub]; rewrite ?sym01, ?sym02, ?sym12.
  - destruct (@null_candidates (m 0%nat 0%nat) (m 1%nat 1%nat) (m 2%nat 2%nat) (m 1%nat 2%nat) (m 0%nat 2%nat) (m 0%nat 1%nat)) as [C | C];
      first [assumption | lra | left; lra | right; lra].
  - destruct (@null_candidates (m 1%nat 1%nat) (m 2%nat 2%nat) (m 0%nat 0%nat) (m 0%nat 2%nat) (m 0%nat 1%nat) (m 1%nat 2%nat)) as [C | C];
      first [assumption | lra | left; lra | right; lra].
  - destruct (@null_candidates (m 2%nat 2%nat) (m 0%nat 0%nat) (m 1%nat 1%nat) (m 0%nat 1%nat) (m 1%nat 2%nat) (m 0%nat 2%nat)) as [C | C];
      first [assumption | lra | left; lra | right; lra].
Qed.
Lemma cross_null s i : (s = 1 \/ s = 2)%nat -> (i < 3)%nat -> dot (m i) (rcross (m r) (m ((r + s)%nat mod 3))) = 0.
Proof.
  unfold mdet in *. intros Hs Hi.
  destruct r as [| [| [| k]]]; [| | | lia]; (destruct i as [| [| [| k']]]; [| | | lia]); destruct Hs; subst s;
    cbn [Nat.add Nat.modulo Nat.divmod fst snd Nat.sub]; unfold dot, rcross; cbn [Nat.add Nat.modulo Nat.divmod fst snd Nat.sub];
    rewrite ?sym01, ?sym02, ?sym12; nra.
Qed.
End Matrix.

(** ** Orthonormal bases *)
Section Basis.
Variables u v w : nat -> R.
Hypothesis uu : dot u u = 1.
Hypothesis vv : dot v v = 1.
Hypothesis ww : dot w w = 1.
Hypothesis uv : dot u v = 0.
Hypothesis uw : dot u w = 0.
Hypothesis vw : dot v w = 0.
Lemma complete i j : (i < 3)%nat -> (j < 3)%nat -> u i * u j + v i * v j + w i * w j = if Nat.eqb i j then 1 else 0.
Proof.
  set (P := fun i j => u i * u j + v i * v j + w i * w j).
  assert (Z : (P 0%nat 0%nat - 1) ^ 2 + (P 1%nat 1%nat - 1) ^ 2 + (P 2%nat 2%nat - 1) ^ 2 +
              2 * (P 0%nat 1%nat) ^ 2 + 2 * (P 0%nat 2%nat) ^ 2 + 2 * (P 1%nat 2%nat) ^ 2 = 0).
  { transitivity (dot u u ^ 2 + dot v v ^ 2 + dot w w ^ 2 + 2 * dot u v ^ 2 + 2 * dot u w ^ 2 + 2 * dot v w ^ 2
                  - 2 * (dot u u + dot v v + dot w w) + 3); [unfold P, dot; ring |].
    rewrite uu, vv, ww, uv, uw, vw. ring. }
  pose proof (pow2_ge_0 (P 0%nat 0%nat - 1)). pose proof (pow2_ge_0 (P 1%nat 1%nat - 1)). pose proof (pow2_ge_0 (P 2%nat 2%nat - 1)).
  pose proof (pow2_ge_0 (P 0%nat 1%nat)). pose proof (pow2_ge_0 (P 0%nat 2%nat)). pose proof (pow2_ge_0 (P 1%nat 2%nat)).
  assert (Q : forall x, x ^ 2 <= 0 -> x = 0) by (intros; apply Rsqr_0_uniq; rewrite Rsqr_pow2; pose proof (pow2_ge_0 x); lra).
  assert (E00 : P 0%nat 0%nat - 1 = 0) by (apply Q; lra). assert (E11 : P 1%nat 1%nat - 1 = 0) by (apply Q; lra).
  assert (E22 : P 2%nat 2%nat - 1 = 0) by (apply Q; lra). assert (E01 : P 0%nat 1%nat = 0) by (apply Q; lra).
  assert (E02 : P 0%nat 2%nat = 0) by (apply Q; lra). assert (E12 : P 1%nat 2%nat = 0) by (apply Q; lra). unfold P in *.
  intros Hi Hj. destruct i as [| [| [| i]]]; [| | | lia]; (destruct j as [| [| [| j]]]; [| | | lia]); cbn [Nat.eqb]; lra.
Qed.
Lemma expand x i : (i < 3)%nat -> x i = dot x u * u i + dot x v * v i + dot x w * w i.
Proof.
  intros Hi. pose proof (complete i 0%nat Hi ltac:(lia)) as E0. pose proof (complete i 1%nat Hi ltac:(lia)) as E1.
  pose proof (complete i 2%nat Hi ltac:(lia)) as E2.
  transitivity (x 0%nat * (u i * u 0%nat + v i * v 0%nat + w i * w 0%nat) + x 1%nat * (u i * u 1%nat + v i * v 1%nat + w i * w 1%nat) +
                x 2%nat * (u i * u 2%nat + v i * v 2%nat + w i * w 2%nat)); [| unfold dot; ring].
  rewrite E0, E1, E2. destruct i as [| [| [| i]]]; [| | | lia]; cbn [Nat.eqb]; ring.
Qed.
Lemma pythagoras x : dot x x = dot x u * dot x u + dot x v * dot x v + dot x w * dot x w.
Proof.
  pose proof (expand x 0%nat ltac:(lia)) as E0. pose proof (expand x 1%nat ltac:(lia)) as E1. pose proof (expand x 2%nat ltac:(lia)) as E2.
  unfold dot at 1. transitivity (x 0%nat * (dot x u * u 0%nat + dot x v * v 0%nat + dot x w * w 0%nat) +
    x 1%nat * (dot x u * u 1%nat + dot x v * v 1%nat + dot x w * w 1%nat) + x 2%nat * (dot x u * u 2%nat + dot x v * v 2%nat + dot x w * w 2%nat)).
  - now rewrite <- E0, <- E1, <- E2.
  - unfold dot. ring.
Qed.

(** A symmetric matrix in the basis. *)
Variable c : nat -> nat -> R.
Hypothesis sym01 : c 1%nat 0%nat = c 0%nat 1%nat.
Hypothesis sym02 : c 2%nat 0%nat = c 0%nat 2%nat.
Hypothesis sym12 : c 2%nat 1%nat = c 1%nat 2%nat.
Definition apply3 (x : nat -> R) (i : nat) : R := dot (c i) x.
Lemma self_adjoint x y : dot (apply3 x) y = dot (apply3 y) x.
Proof. unfold apply3, dot. rewrite sym01, sym02, sym12. ring. Qed.
Lemma trace_basis : dot (apply3 u) u + dot (apply3 v) v + dot (apply3 w) w = c 0%nat 0%nat + c 1%nat 1%nat + c 2%nat 2%nat.
Proof.
  pose proof (fun i j Hi Hj => complete i j Hi Hj) as C.
  transitivity (c 0%nat 0%nat * (u 0%nat * u 0%nat + v 0%nat * v 0%nat + w 0%nat * w 0%nat) +
    c 1%nat 1%nat * (u 1%nat * u 1%nat + v 1%nat * v 1%nat + w 1%nat * w 1%nat) + c 2%nat 2%nat * (u 2%nat * u 2%nat + v 2%nat * v 2%nat + w 2%nat * w 2%nat) +
    2 * c 0%nat 1%nat * (u 0%nat * u 1%nat + v 0%nat * v 1%nat + w 0%nat * w 1%nat) + 2 * c 0%nat 2%nat * (u 0%nat * u 2%nat + v 0%nat * v 2%nat + w 0%nat * w 2%nat) +
    2 * c 1%nat 2%nat * (u 1%nat * u 2%nat + v 1%nat * v 2%nat + w 1%nat * w 2%nat)).
  - unfold apply3, dot. rewrite sym01, sym02, sym12. ring.
  - rewrite !C by lia. cbn [Nat.eqb]. ring.
Qed.
(** Twice the sum of the squares of the entries. *)
Definition square_sum : R :=
  c 0%nat 0%nat ^ 2 + c 1%nat 1%nat ^ 2 + c 2%nat 2%nat ^ 2 + 2 * c 0%nat 1%nat ^ 2 + 2 * c 0%nat 2%nat ^ 2 + 2 * c 1%nat 2%nat ^ 2.
Lemma square_basis : dot (apply3 u) (apply3 u) + dot (apply3 v) (apply3 v) + dot (apply3 w) (apply3 w) = square_sum.
Proof.
  pose proof (fun i j Hi Hj => complete i j Hi Hj) as C. unfold square_sum.
  set (k := fun i j => c 0%nat i * c 0%nat j + c 1%nat i * c 1%nat j + c 2%nat i * c 2%nat j).
  transitivity (k 0%nat 0%nat * (u 0%nat * u 0%nat + v 0%nat * v 0%nat + w 0%nat * w 0%nat) +
    k 1%nat 1%nat * (u 1%nat * u 1%nat + v 1%nat * v 1%nat + w 1%nat * w 1%nat) + k 2%nat 2%nat * (u 2%nat * u 2%nat + v 2%nat * v 2%nat + w 2%nat * w 2%nat) +
    2 * k 0%nat 1%nat * (u 0%nat * u 1%nat + v 0%nat * v 1%nat + w 0%nat * w 1%nat) + 2 * k 0%nat 2%nat * (u 0%nat * u 2%nat + v 0%nat * v 2%nat + w 0%nat * w 2%nat) +
    2 * k 1%nat 2%nat * (u 1%nat * u 2%nat + v 1%nat * v 2%nat + w 1%nat * w 2%nat)).
  - unfold k, apply3, dot. ring.
  - rewrite !C by lia. cbn [Nat.eqb]. unfold k. rewrite sym01, sym02, sym12. ring.
Qed.

(** If the first basis vector is an eigenvector, the others are mapped into their plane; if the eigenvalues there are close then every
    unit vector of the plane is nearly an eigenvector. *)
Variables lu lv lw : R.
Hypothesis eigen_u : forall i, (i < 3)%nat -> apply3 u i = lu * u i.
Hypothesis trace_sum : lu + lv + lw = c 0%nat 0%nat + c 1%nat 1%nat + c 2%nat 2%nat.
Hypothesis squares : lu ^ 2 + lv ^ 2 + lw ^ 2 = square_sum.
Lemma image_u x : dot (apply3 u) x = lu * dot u x.
Proof. unfold dot at 1. rewrite !eigen_u by lia. unfold dot. ring. Qed.
Definition off (l : R) (x : nat -> R) : R := dot (fun i => apply3 x i - l * x i) (fun i => apply3 x i - l * x i).
Lemma off_u : off lu u = 0.
Proof. unfold off, dot. rewrite !eigen_u by lia. ring. Qed.
Lemma off_expand l x : off l x = dot (apply3 x) (apply3 x) - 2 * l * dot (apply3 x) x + l ^ 2 * dot x x.
Proof. unfold off, dot. ring. Qed.
Lemma plane : exists a b, dot (apply3 v) v = a /\ dot (apply3 w) w = lv + lw - a /\ b * b = (a - lv) * (lw - a) /\
  dot (apply3 v) (apply3 v) = a * a + b * b /\ dot (apply3 w) (apply3 w) = (lv + lw - a) * (lv + lw - a) + b * b.
Proof.
  exists (dot (apply3 v) v), (dot (apply3 v) w).
  assert (Tr := trace_basis). rewrite (image_u u), uu in Tr.
  assert (Vu : dot (apply3 v) u = 0) by (rewrite self_adjoint, image_u, uv; ring).
  assert (Wu : dot (apply3 w) u = 0) by (rewrite self_adjoint, image_u, uw; ring).
  assert (Uv : dot (apply3 u) v = 0) by (rewrite image_u, uv; ring).
  assert (Uw : dot (apply3 u) w = 0) by (rewrite image_u, uw; ring).
  assert (Wv : dot (apply3 w) v = dot (apply3 v) w) by apply self_adjoint.
  assert (Pu := pythagoras (apply3 u)). rewrite (image_u u), Uv, Uw, uu in Pu.
  assert (Pv := pythagoras (apply3 v)). rewrite Vu in Pv.
  assert (Pw := pythagoras (apply3 w)). rewrite Wu, Wv in Pw.
  assert (Sq := square_basis). rewrite Pu, Pv, Pw, <- squares in Sq.
  assert (W : dot (apply3 w) w = lv + lw - dot (apply3 v) v) by lra.
  rewrite W in *. split; [auto | split; [auto |]]. split; [| split; lra].
  set (a := dot (apply3 v) v) in *. set (b := dot (apply3 v) w) in *. clearbody a b. clear - Sq. nra.
Qed.
Lemma off_plane : off lv v <= (lw - lv) ^ 2 /\ off lw w <= (lw - lv) ^ 2.
Proof.
  destruct plane as (a & b & A & W & B & VV & WW). rewrite !off_expand, VV, WW, A, W, vv, ww.
  assert (0 <= (a - lv) * (lw - a)) by (rewrite <- B; nra).
  pose proof (pow2_ge_0 (lw - a)). rewrite !B. clear - H H0. split; nra.
Qed.
(** With a second eigenvector the third one is exact. *)
Lemma off_third : off lv v = 0 -> off lw w = 0.
Proof.
  destruct plane as (a & b & A & W & B & VV & WW). rewrite !off_expand, VV, WW, A, W, vv, ww. nra.
Qed.
End Basis.
Lemma off_zero c l x : off c l x <= 0 -> forall i, (i < 3)%nat -> apply3 c x i = l * x i.
Proof.
  intros H. apply dot_zero in H. destruct H as (A & B & C). intros i Hi. destruct i as [| [| [| i]]]; [| | | lia]; lra.
Qed.
