(** The operations of EigenProofs on real numbers: every result has a value. *)
From Coq Require Import Reals List Arith Bool Lra Lia Psatz FunctionalExtensionality.
From Verif Require Import Base Tensor TensorSpec TensorFixed Eigen EigenProofs EigenProofs2 EigenReal EigenSpec EigenMath EigenMath2.
Import ListNotations.
Set Implicit Arguments.
Local Open Scope R_scope.

Lemma rdiv_some a b : b <> 0 -> rdiv (Some a) (Some b) = Some (a / b).
Proof. intros H. cbn. destruct (Req_EM_T b 0); [tauto | reflexivity]. Qed.
Lemma rsqrt_some a : 0 <= a -> rsqrt (Some a) = Some (sqrt a).
Proof. intros H. cbn. destruct (Rlt_dec a 0); [lra | reflexivity]. Qed.
Lemma invsqrt_some a : 0 < a -> rdiv (Some 1) (rsqrt (Some a)) = Some (1 / sqrt a).
Proof. intros H. rewrite rsqrt_some by lra. apply rdiv_some. pose proof (sqrt_lt_R0 a H). lra. Qed.
Lemma racos_some a : -1 <= a <= 1 -> racos (Some a) = Some (acos a).
Proof. intros H. cbn. destruct (Rle_dec (-1) a); [| lra]. destruct (Rle_dec a 1); [reflexivity | lra]. Qed.
Lemma rgt_true a b : b < a -> rgt (Some a) (Some b) = true.
Proof. intros H. cbn. destruct (Rlt_dec b a); [reflexivity | lra]. Qed.
Lemma rgt_false a b : a <= b -> rgt (Some a) (Some b) = false.
Proof. intros H. cbn. destruct (Rlt_dec b a); [lra | reflexivity]. Qed.
Lemma rle_true a b : a <= b -> rle (Some a) (Some b) = true.
Proof. intros H. cbn. destruct (Rle_dec a b); [reflexivity | lra]. Qed.
Lemma rle_false a b : b < a -> rle (Some a) (Some b) = false.
Proof. intros H. cbn. destruct (Rle_dec a b); [lra | reflexivity]. Qed.

Section Real.
Variable eps : R.
Notation fl := (rfloating eps).
Notation some a := (fun i : nat => Some (a i : R)).
Notation some2 m := (fun i j : nat => Some (m i j : R)).

(** ** shiftAndScale *)
Definition largest (l : list R) (s : R) : R := fold_left (fun m y => Rmax m (Rabs y)) l s.
Lemma largest_some l s : fold_left (fun m y => fmax fl m (fabs fl y)) (map Some l) (Some s) = Some (largest l s).
Proof. revert s. induction l as [| y l IH]; intros s; cbn; auto. Qed.
Lemma largest_ge l : forall s, s <= largest l s /\ forall y, In y l -> Rabs y <= largest l s.
Proof.
  induction l as [| x l IH]; intros s; cbn; [split; [lra | tauto] |].
  destruct (IH (Rmax s (Rabs x))) as (A & B). pose proof (Rmax_l s (Rabs x)). pose proof (Rmax_r s (Rabs x)).
  unfold largest in *. split; [lra |]. intros y [-> | H1]; [lra | auto].
Qed.
Lemma largest_in l : forall s, largest l s = s \/ exists y, In y l /\ largest l s = Rabs y.
Proof.
  induction l as [| x l IH]; intros s; cbn; [auto |].
  destruct (IH (Rmax s (Rabs x))) as [E | (y & H & E)]; unfold largest in *; rewrite E.
  - unfold Rmax. destruct (Rle_dec s (Rabs x)); [right; exists x; auto | auto].
  - right. exists y. auto.
Qed.

Lemma SYM_SIZE_pos n : n = 2%nat \/ n = 3%nat -> (0 < SYM_SIZE n)%nat.
Proof. intros [-> | ->]; cbn; lia. Qed.
Lemma shifted_some n a : n = 2%nat \/ n = 3%nat -> exists t m c,
  mean rarith n (some a) = Some t /\ max_entry fl n (centred rarith n (some a)) = Some m /\ shifted rarith fl n (some a) = some c /\
  0 <= m /\ (forall i, (i < SYM_SIZE n)%nat -> a i = m * c i + if (i <? n)%nat then t else 0) /\ rsum n c = 0 /\
  (m = 0 -> forall i, (i < SYM_SIZE n)%nat -> c i = 0) /\ (m <> 0 -> exists i, (i < SYM_SIZE n)%nat /\ Rabs (c i) = 1).
Proof.
  intros Hn.
  assert (Mean : forall b, exists t, mean rarith n (some b) = Some t /\ INR n * t = rsum n b).
  { intros b. destruct Hn as [-> | ->].
    - exists ((b 0%nat + b 1%nat) / (1 + 1)). split; [apply rdiv_some; lra | cbn; field].
    - exists ((b 0%nat + b 1%nat + b 2%nat) / (1 + 1 + 1)). split; [apply rdiv_some; lra | cbn; field]. }
  assert (Centred : forall b t, mean rarith n (some b) = Some t -> centred rarith n (some b) = some (fun i => if (i <? n)%nat then b i + - t else b i)).
  { intros b t E. unfold centred. rewrite E. extensionality i. unfold add_identity. destruct (i <? n)%nat; reflexivity. }
  assert (Pos : 0 < INR n) by (destruct Hn as [-> | ->]; cbn; lra).
  destruct (Mean a) as (t & Et & Ht). pose proof (Centred a t Et) as Ec. set (b := fun i => if (i <? n)%nat then a i + - t else a i) in *.
  assert (Sb : rsum n b = 0) by (destruct Hn as [-> | ->]; unfold b; cbn in Ht |- *; lra).
  set (m := largest (map b (seq 0 (SYM_SIZE n))) (Rabs (b 0%nat))).
  assert (Em : max_entry fl n (centred rarith n (some a)) = Some m).
  { rewrite Ec. unfold max_entry. rewrite <- (map_map b Some). apply largest_some. }
  destruct (largest_ge (map b (seq 0 (SYM_SIZE n))) (Rabs (b 0%nat))) as (_ & Ge). fold m in Ge.
  assert (Gb : forall i, (i < SYM_SIZE n)%nat -> Rabs (b i) <= m) by (intros i Hi; apply Ge, in_map, in_seq; lia).
  assert (Ib : exists i, (i < SYM_SIZE n)%nat /\ Rabs (b i) = m).
  { destruct (largest_in (map b (seq 0 (SYM_SIZE n))) (Rabs (b 0%nat))) as [E | (y & Hy & E)]; fold m in E.
    - exists 0%nat. split; [now apply SYM_SIZE_pos | auto].
    - apply in_map_iff in Hy. destruct Hy as (i & <- & Hi). apply in_seq in Hi. exists i. split; [lia | auto]. }
  assert (Pm : 0 <= m) by (destruct Ib as (i & _ & <-); apply Rabs_pos).
  set (s := fun i => if Rlt_dec 0 m then b i * (1 / m) else b i).
  assert (Es : scaled rarith fl n (centred rarith n (some a)) = some s).
  { unfold scaled. rewrite Em, Ec. extensionality i. unfold s. change (fgt fl) with rgt. change (zero rarith) with (Some 0).
    destruct (Rlt_dec 0 m) as [L | L].
    - rewrite rgt_true by auto. change (div rarith) with rdiv. change (one rarith) with (Some 1). rewrite rdiv_some by lra. reflexivity.
    - rewrite rgt_false by lra. reflexivity. }
  assert (Ss : rsum n s = 0).
  { unfold s. destruct (Rlt_dec 0 m); [| auto]. transitivity (rsum n b * (1 / m)); [| rewrite Sb; ring].
    destruct Hn as [-> | ->]; cbn; ring. }
  destruct (Mean s) as (t' & Et' & Ht'). rewrite Ss in Ht'. assert (Z : t' = 0) by (apply Rmult_eq_reg_l with (INR n); lra). subst t'.
  exists t, m, (fun i => if (i <? n)%nat then s i + - 0 else s i).
  split; [exact Et | split; [exact Em | split]].
  { unfold shifted. rewrite Es. apply Centred. exact Et'. }
  assert (Sv : forall i, (if (i <? n)%nat then s i + - 0 else s i) = s i) by (intros i; destruct (i <? n)%nat; ring).
  split; [exact Pm | split; [| split; [| split]]].
  - intros i Hi. rewrite Sv. assert (E : a i = b i + if (i <? n)%nat then t else 0) by (unfold b; destruct (i <? n)%nat; ring).
    rewrite E. f_equal. unfold s. destruct (Rlt_dec 0 m); [field; lra |].
    assert (m = 0) by lra. specialize (Gb i Hi). pose proof (Rabs_pos (b i)). assert (b i = 0) by (destruct (Req_dec (b i) 0) as [| N]; [auto | apply Rabs_no_R0 in N; lra]).
    rewrite H1. ring.
  - transitivity (rsum n s); [| exact Ss]. destruct Hn as [-> | ->]; cbn; ring.
  - intros M i Hi. rewrite Sv. unfold s. destruct (Rlt_dec 0 m); [lra |]. specialize (Gb i Hi). pose proof (Rabs_pos (b i)).
    destruct (Req_dec (b i) 0) as [| N]; [auto | apply Rabs_no_R0 in N; lra].
  - intros M. destruct Ib as (i & Hi & E). exists i. split; [auto |]. rewrite Sv. unfold s. destruct (Rlt_dec 0 m); [| lra].
    rewrite Rabs_mult, E, (Rabs_right (1 / m)); [field; lra |]. apply Rle_ge, Rlt_le. apply Rdiv_lt_0_compat; lra.
Qed.

(** ** 2x2 *)
Lemma roots2_some c : c 1%nat = - c 0%nat -> exists r, 0 <= r /\ r * r = c 2%nat * c 2%nat + c 0%nat * c 0%nat /\
  roots2 rarith fl (some c) = some (fun i => if (i =? 1)%nat then r else - r).
Proof.
  intros E. set (q := c 2%nat * c 2%nat - c 0%nat * c 1%nat). assert (Q : 0 <= q) by (unfold q; rewrite E; nra).
  exists (sqrt q). split; [apply sqrt_pos | split].
  - rewrite sqrt_def by auto. unfold q. rewrite E. ring.
  - extensionality i. unfold roots2. change (fsqrt fl) with rsqrt. change (sub rarith _ _) with (Some q). rewrite rsqrt_some by auto.
    destruct (i =? 1)%nat; reflexivity.
Qed.

Lemma vectors2_some c r : c 1%nat = - c 0%nat -> 0 < r -> r * r = c 2%nat * c 2%nat + c 0%nat * c 0%nat -> exists p q,
  (forall i j, vectors2 rarith fl (add_identity rarith 2 (some c) (Some (- r))) i j =
     Some (match i, j with O, O => - q | O, _ => p | _, O => p | _, _ => q end)) /\
  p * p + q * q = 1 /\ c 0%nat * p + c 2%nat * q = r * p /\ c 2%nat * p + c 1%nat * q = r * q.
Proof.
  intros E1 Hr E. set (g0 := c 0%nat + - r). set (g1 := c 1%nat + - r). set (g2 := c 2%nat).
  assert (D : g0 * g1 = g2 * g2) by (unfold g0, g1, g2; rewrite E1; nra).
  assert (N : g0 + g1 = - 2 * r) by (unfold g0, g1; rewrite E1; ring).
  destruct (Rlt_dec (g1 * g1) (g0 * g0)) as [L | L].
  - assert (P : 0 < g0 * g0 + g2 * g2) by nra. set (k := 1 / sqrt (g0 * g0 + g2 * g2)).
    assert (K : (g0 * g0 + g2 * g2) * (k * k) = 1) by (apply root_unit; exact P).
    exists (- g2 * k), (g0 * k). split; [| split; [nra | split]].
    + intros i j. unfold vectors2. cbv zeta. change (fgt fl _ _) with (rgt (Some (g0 * g0)) (Some (g1 * g1))). rewrite rgt_true by auto.
      change (finvSqrt fl _) with (rdiv (Some 1) (rsqrt (Some (g0 * g0 + g2 * g2)))). rewrite invsqrt_some by auto. fold k.
      destruct i, j; reflexivity.
    + transitivity (r * (- g2 * k) + k * (g0 * (- g2) + g2 * g0)); [unfold g0, g2; ring | ring].
    + transitivity (r * (g0 * k) + k * (g0 * g1 - g2 * g2)); [unfold g0, g1, g2; ring | rewrite D; ring].
  - assert (P : 0 < g1 * g1 + g2 * g2).
    { assert (g1 <> 0) by (intros Z; rewrite Z in *; assert (g0 = 0) by nra; lra). nra. }
    set (k := 1 / sqrt (g1 * g1 + g2 * g2)).
    assert (K : (g1 * g1 + g2 * g2) * (k * k) = 1) by (apply root_unit; exact P).
    exists (- g1 * k), (g2 * k). split; [| split; [nra | split]].
    + intros i j. unfold vectors2. cbv zeta. change (fgt fl _ _) with (rgt (Some (g0 * g0)) (Some (g1 * g1))). rewrite rgt_false by lra.
      change (finvSqrt fl _) with (rdiv (Some 1) (rsqrt (Some (g1 * g1 + g2 * g2)))). rewrite invsqrt_some by auto. fold k.
      destruct i, j; reflexivity.
    + transitivity (r * (- g1 * k) + k * (g2 * g2 - g0 * g1)); [unfold g0, g1, g2; ring | rewrite D; ring].
    + transitivity (r * (g2 * k) + k * (g1 * g2 - g2 * g1)); [unfold g0, g1, g2; ring | ring].
Qed.

(** ** 3x3 *)
Definition qof (c : nat -> R) : R :=
  (c 2%nat * c 2%nat - c 0%nat * c 1%nat + c 3%nat * c 3%nat + c 4%nat * c 4%nat + c 5%nat * c 5%nat) / 3.
Definition dof (c : nat -> R) : R :=
  c 0%nat * c 1%nat * c 2%nat + c 5%nat * c 4%nat * c 3%nat * 2 - c 0%nat * c 3%nat * c 3%nat - c 1%nat * c 4%nat * c 4%nat - c 2%nat * c 5%nat * c 5%nat.
Lemma roots3_some c : c 2%nat = - c 0%nat - c 1%nat -> exists l, roots3 rarith fl (some c) = some l /\
  l 0%nat + l 1%nat + l 2%nat = 0 /\ l 0%nat * l 1%nat + l 0%nat * l 2%nat + l 1%nat * l 2%nat = - 3 * qof c /\
  l 0%nat * l 1%nat * l 2%nat = dof c /\ l 0%nat <= l 1%nat /\ l 1%nat <= l 2%nat.
Proof.
  intros E2.
  assert (Q : 0 <= qof c) by (unfold qof; rewrite E2; apply q_nonneg).
  assert (B : dof c * dof c <= 4 * (qof c * qof c * qof c)) by (unfold dof, qof; rewrite E2; apply det_bound).
  set (p := sqrt (qof c)). assert (Pp : 0 <= p) by apply sqrt_pos. assert (Pq : p * p = qof c) by now apply sqrt_def.
  assert (Er : radius rarith fl (some c) = Some p).
  { unfold radius. change (fsqrt fl) with rsqrt. change (div rarith) with rdiv.
    change (number rarith 3) with (Some (1 + 1 + 1)). change (add rarith _ _) with (Some (c 2%nat * c 2%nat - c 0%nat * c 1%nat + c 3%nat * c 3%nat + c 4%nat * c 4%nat + c 5%nat * c 5%nat)).
    rewrite rdiv_some by lra. unfold p, qof. replace (1 + 1 + 1) with 3 by ring. apply rsqrt_some. exact Q. }
  set (half := if Rlt_dec 0 p then dof c / (p * p * p) / (1 + 1) else 0).
  assert (Hh : -1 <= half <= 1 /\ dof c = 2 * (p * p * p) * half).
  { unfold half. destruct (Rlt_dec 0 p) as [L | L].
    - assert (P3 : 0 < p * p * p) by (repeat apply Rmult_lt_0_compat; auto).
      assert (B' : dof c * dof c <= (2 * (p * p * p)) * (2 * (p * p * p))) by (rewrite <- Pq in B; lra).
      assert (- (2 * (p * p * p)) <= dof c <= 2 * (p * p * p)) by (split; nra).
      split; [| field; lra]. unfold Rdiv. set (k := / (p * p * p)). assert (K : (p * p * p) * k = 1) by (unfold k; field; lra).
      assert (Kp : 0 < k) by (apply Rinv_0_lt_compat; auto). split; nra.
    - assert (p = 0) by lra. split; [lra |]. rewrite H in Pq. rewrite <- Pq in B. nra. }
  destruct Hh as (Hh & Hd).
  destruct (third_of_acos half Hh) as (Ht & Hc). set (t := acos half / (1 + 1 + 1)). assert (Et : acos half / 3 = t) by (unfold t; f_equal; ring).
  rewrite Et in *.
  assert (Ea : angle rarith fl (some c) = Some t).
  { unfold angle. rewrite Er. cbv zeta.
    change (fgt fl (Some p) (zero rarith)) with (rgt (Some p) (Some 0)). change (div rarith) with rdiv.
    change (mul rarith (mul rarith (Some p) (Some p)) (Some p)) with (Some (p * p * p)).
    change (zero rarith) with (Some 0).
    assert (Ed : (if rgt (Some p) (Some 0) then rdiv (det3 rarith (some c)) (Some (p * p * p)) else Some 0) = Some (half * 2)).
    { unfold half in *. destruct (Rlt_dec 0 p) as [L | L].
      - rewrite rgt_true by auto. change (det3 rarith (some c)) with (Some (c 0%nat * c 1%nat * c 2%nat + c 5%nat * c 4%nat * c 3%nat * (1 + 1) - c 0%nat * c 3%nat * c 3%nat - c 1%nat * c 4%nat * c 4%nat - c 2%nat * c 5%nat * c 5%nat)).
        assert (p * p * p <> 0) by (apply Rgt_not_eq; repeat apply Rmult_lt_0_compat; auto).
        rewrite rdiv_some by auto. f_equal. unfold dof. field. lra.
      - rewrite rgt_false by lra. f_equal. ring. }
    rewrite Ed. change (fgt fl) with rgt. change (two rarith) with (Some (1 + 1)). change (opp rarith (Some (1 + 1))) with (Some (- (1 + 1))).
    rewrite rgt_false by lra. rewrite rgt_false by lra. rewrite rdiv_some by lra.
    replace (half * 2 / (1 + 1)) with half by field. change (facos fl) with racos. rewrite racos_some by auto.
    change (number rarith 3) with (Some (1 + 1 + 1)). rewrite rdiv_some by lra. reflexivity. }
  exists (fun i => match i with O => - p * (cos t + sqrt 3 * sin t) | 1%nat => - p * (cos t - sqrt 3 * sin t) | _ => (1 + 1) * p * cos t end).
  split.
  { extensionality i. unfold roots3. rewrite Er, Ea. destruct i as [| [| i]]; reflexivity. }
  rewrite <- Hc in Hd. replace (1 + 1) with 2 by ring.
  split; [apply root_sum | split; [rewrite <- Pq; apply root_pairs | split; [now apply root_product | now apply root_order]]].
Qed.

(** ** Null vectors *)
Lemma cross_some x y : cross rarith (some x) (some y) = some (rcross x y).
Proof. reflexivity. Qed.
Lemma norm2_some x : norm2 rarith (some x) = Some (dot x x).
Proof. reflexivity. Qed.
Lemma largest_row_some m : let r := largest_row fl (some2 m) in forall i, (i < 3)%nat -> Rabs (m i i) <= Rabs (m r r).
Proof.
  intros r i Hi. unfold r, largest_row. cbn -[rgt Rabs].
  destruct (rgt (Some (Rabs (m 0%nat 0%nat))) (Some (Rabs (m 1%nat 1%nat)))) eqn:A;
  [destruct (rgt (Some (Rabs (m 0%nat 0%nat))) (Some (Rabs (m 2%nat 2%nat)))) eqn:B | destruct (rgt (Some (Rabs (m 1%nat 1%nat))) (Some (Rabs (m 2%nat 2%nat)))) eqn:B];
  cbn in A, B; destruct (Rlt_dec _ _) in A; try discriminate; destruct (Rlt_dec _ _) in B; try discriminate;
  (destruct i as [| [| [| i]]]; [lra | lra | lra | lia]).
Qed.
Lemma null_vector_some m : m 1%nat 0%nat = m 0%nat 1%nat -> m 2%nat 0%nat = m 0%nat 2%nat -> m 2%nat 1%nat = m 1%nat 2%nat ->
  mdet m = 0 -> 0 < mminors m -> exists u, null_vector rarith fl (some2 m) = some u /\ dot u u = 1 /\ forall i, (i < 3)%nat -> dot (m i) u = 0.
Proof.
  intros S1 S2 S3 D M. pose proof (largest_row_some m) as L. pose proof (largest_row_lt fl (some2 m)) as Hr. cbv zeta in L.
  unfold null_vector. cbv zeta. set (r := largest_row fl (some2 m)) in *. clearbody r.
  pose proof (@candidates m S1 S2 S3 D M r Hr L) as C.
  pose proof (@cross_null m S1 S2 S3 D r Hr L) as Z.
  set (x := rcross (m r) (m ((r + 1)%nat mod 3))) in *. set (y := rcross (m r) (m ((r + 2)%nat mod 3))) in *.
  rewrite (cross_some (m r) (m ((r + 1)%nat mod 3))), (cross_some (m r) (m ((r + 2)%nat mod 3))). fold x y.
  rewrite !norm2_some. change (fgt fl) with rgt.
  destruct (Rlt_dec (dot y y) (dot x x)) as [G | G].
  - assert (P : 0 < dot x x) by (pose proof (dot_nonneg y); lra). rewrite rgt_true by auto.
    change (finvSqrt fl (Some (dot x x))) with (rdiv (Some 1) (rsqrt (Some (dot x x)))). rewrite invsqrt_some by auto.
    set (k := 1 / sqrt (dot x x)). exists (fun i => x i * k). split; [reflexivity | split].
    + rewrite dot_scale. now apply root_unit.
    + intros i Hi. specialize (Z 1%nat i ltac:(auto) Hi). fold x in Z. transitivity (dot (m i) x * k); [unfold dot; ring | rewrite Z; ring].
  - assert (P : 0 < dot y y) by (destruct C; lra). rewrite rgt_false by lra.
    change (finvSqrt fl (Some (dot y y))) with (rdiv (Some 1) (rsqrt (Some (dot y y)))). rewrite invsqrt_some by auto.
    set (k := 1 / sqrt (dot y y)). exists (fun i => k * y i). split; [reflexivity | split].
    + transitivity (dot y y * (k * k)); [unfold dot; ring | now apply root_unit].
    + intros i Hi. specialize (Z 2%nat i ltac:(auto) Hi). fold y in Z. transitivity (dot (m i) y * k); [unfold dot; ring | rewrite Z; ring].
Qed.
End Real.
