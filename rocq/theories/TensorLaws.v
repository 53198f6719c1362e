(** Sequences of tensor operations, and laws of sums. *)
From Coq Require Import List Arith Bool Lia Ring Field.
From Verif Require Import Base BaseProofs Tensor TensorSpec TensorFixed TensorProofs TensorFixedProofs.
Import ListNotations.
Set Implicit Arguments.

Section Frames.
Variable T : Type.
Notation memory := (list (option T)).
Lemma disjoint_cons P l : disjoint (P :: l) -> Forall (apart P) l /\ disjoint l.
Proof. intros H. inversion H; auto. Qed.
Lemma apart_sym (P Q : nat -> Prop) : apart P Q -> apart Q P.
Proof. intros H s a b. exact (H s b a). Qed.
Lemma mdst_only P (h h' : memory) D n m : only P h h' -> mdst h D n m -> mdst h' D n m.
Proof. intros O (L & R & J). split; [auto | split; auto]. intros. rewrite (proj1 O). auto. Qed.
Lemma vdst_only P (h h' : memory) D n : only P h h' -> vdst h D n -> vdst h' D n.
Proof. intros O (L & R & J). split; [auto | split; auto]. intros. rewrite (proj1 O). auto. Qed.
Lemma mtx_ext (h : memory) D n m x y : mtx h D n m x -> (forall i j, i < n -> j < m -> x i j = y i j) -> mtx h D n m y.
Proof. intros (L & V) E. split; [auto |]. intros. rewrite <- E by auto. auto. Qed.
Lemma vec_ext (h : memory) D n x y : vec h D n x -> (forall i, i < n -> x i = y i) -> vec h D n y.
Proof. intros (L & V) E. split; [auto |]. intros. rewrite <- E by auto. auto. Qed.
End Frames.

(** Split a [disjoint] hypothesis into all its pairs; prove that operands are apart; carry contents over later writes; run one
    operation of a sequence. *)
Ltac pairs := match goal with H : disjoint _ |- _ =>
  repeat (apply disjoint_cons in H; let A := fresh "A" in destruct H as [A H]; repeat (apply Forall_cons_iff in A; let B := fresh "B" in destruct A as [B A]); clear A); clear H end.
Ltac far := solve [assumption | apply apart_sym; assumption].
Ltac kept := match goal with
  | |- vec ?h' ?A _ _ => match goal with O : only _ _ h' |- _ => solve [eapply only_vec; [exact O | far |]; kept] | V : vec h' A _ _ |- _ => exact V end
  | |- mtx ?h' ?A _ _ _ => match goal with O : only _ _ h' |- _ => solve [eapply only_mtx; [exact O | far |]; kept] | V : mtx h' A _ _ _ |- _ => exact V end
  | |- vdst ?h' _ _ => match goal with O : only _ _ h' |- _ => solve [eapply vdst_only; [exact O |]; kept] | V : vdst h' _ _ |- _ => exact V end
  | |- mdst ?h' _ _ _ => match goal with O : only _ _ h' |- _ => solve [eapply mdst_only; [exact O |]; kept] | V : mdst h' _ _ _ |- _ => exact V end
  | |- apart _ _ => far
  | |- _ => assumption end.
Ltac step lem := eapply oks_bind; [eapply lem; kept |]; cbv beta; let h' := fresh "h" in let V := fresh "V" in let O := fresh "O" in intros h' [V O].
Ltac last lem := eapply oks_mono; [eapply lem; kept |]; cbv beta; let h' := fresh "h" in let V := fresh "V" in let O := fresh "O" in intros h' [V O].

Section Sums.
Variable T : Type.
Variable ar : arith T.
Hypothesis Rth : ring_theory (zero ar) (one ar) (add ar) (mul ar) (sub ar) (opp ar) eq.
Add Ring laws_ring : Rth.

Lemma fold_add l : forall r, fold_left (add ar) l r = add ar r (fold_right (add ar) (zero ar) l).
Proof. induction l as [| x l IH]; intros r; cbn; [ring | rewrite IH; ring]. Qed.
Lemma total_right l : total ar l = fold_right (add ar) (zero ar) l.
Proof. destruct l as [| x l]; [reflexivity |]. cbn. now rewrite fold_add. Qed.
Lemma sum_0 f : sum ar 0 f = zero ar.
Proof. reflexivity. Qed.
Lemma sum_S n f : sum ar (S n) f = add ar (sum ar n f) (f n).
Proof.
  unfold sum. rewrite !total_right, seq_S, map_app, fold_right_app. cbn [map fold_right plus].
  assert (E : forall l a, fold_right (add ar) a l = add ar (fold_right (add ar) (zero ar) l) a).
  { induction l as [| y l IH]; intros a; cbn; [ring |]. rewrite IH. ring. }
  rewrite E. ring.
Qed.
Lemma sum_onto_sum r n f : sum_onto ar r n f = add ar r (sum ar n f).
Proof. unfold sum_onto, sum. now rewrite fold_add, total_right. Qed.
Lemma sum_mul_l n c f : mul ar c (sum ar n f) = sum ar n (fun k => mul ar c (f k)).
Proof. induction n as [| n IH]; [rewrite !sum_0; ring |]. rewrite !sum_S, <- IH. ring. Qed.
Lemma sum_mul_r n c f : mul ar (sum ar n f) c = sum ar n (fun k => mul ar (f k) c).
Proof. induction n as [| n IH]; [rewrite !sum_0; ring |]. rewrite !sum_S, <- IH. ring. Qed.
Lemma sum_add n f g : sum ar n (fun k => add ar (f k) (g k)) = add ar (sum ar n f) (sum ar n g).
Proof. induction n as [| n IH]; [rewrite !sum_0; ring |]. rewrite !sum_S, IH. ring. Qed.
Lemma sum_zero n : sum ar n (fun _ => zero ar) = zero ar.
Proof. induction n as [| n IH]; [reflexivity |]. rewrite sum_S, IH. ring. Qed.
Lemma sum_swap n m f : sum ar n (fun i => sum ar m (fun j => f i j)) = sum ar m (fun j => sum ar n (fun i => f i j)).
Proof.
  induction n as [| n IH]; [rewrite sum_0; symmetry; apply sum_zero |].
  rewrite sum_S, IH, <- sum_add.
  assert (X : forall k a b, (forall j, a j = b j) -> sum ar k a = sum ar k b) by (intros k a b E; unfold sum; f_equal; now apply map_ext).
  apply X. intros j. now rewrite sum_S.
Qed.
Lemma sum_same n f g : (forall k, k < n -> f k = g k) -> sum ar n f = sum ar n g.
Proof. intros E. unfold sum. f_equal. apply map_ext_in. intros k Hk. apply E. apply in_seq in Hk. lia. Qed.
Lemma congruence_direct n (u v : nat -> T) (S : nat -> nat -> T) :
  sum ar n (fun k => mul ar (sum ar n (fun l => mul ar (u l) (S l k))) (v k)) =
  sum ar n (fun k => sum ar n (fun l => mul ar (mul ar (u k) (S k l)) (v l))).
Proof. rewrite (sum_swap n n). apply sum_same. intros k Hk. apply sum_mul_r. Qed.
Lemma congruence_swapped n (u v : nat -> T) (S : nat -> nat -> T) : (forall k l, k < n -> l < n -> S k l = S l k) ->
  sum ar n (fun k => mul ar (sum ar n (fun l => mul ar (u l) (S l k))) (v k)) =
  sum ar n (fun k => sum ar n (fun l => mul ar (mul ar (v k) (S k l)) (u l))).
Proof. intros Sy. apply sum_same. intros k Hk. rewrite sum_mul_r. apply sum_same. intros l Hl. rewrite (Sy l k) by auto. ring. Qed.

(** The cross product. *)
Definition cross (x y : nat -> T) (i : nat) : T :=
  let j := (i + 1) mod 3 in let k := (i + 2) mod 3 in sub ar (mul ar (x j) (y k)) (mul ar (x k) (y j)).
Lemma cross_opp x y i : i < 3 -> cross y x i = opp ar (cross x y i).
Proof. intros Hi. destruct i as [| [| [| i]]]; [| | | lia]; unfold cross; cbn -[add mul sub opp]; ring. Qed.
Lemma cross_left x y : sum ar 3 (fun i => mul ar (cross x y i) (x i)) = zero ar.
Proof. unfold sum, total, cross. cbn -[add mul sub opp zero]. ring. Qed.
Lemma cross_right x y : sum ar 3 (fun i => mul ar (cross x y i) (y i)) = zero ar.
Proof. unfold sum, total, cross. cbn -[add mul sub opp zero]. ring. Qed.
Lemma cross_lagrange x y :
  add ar (sum ar 3 (fun i => mul ar (cross x y i) (cross x y i)))
         (mul ar (sum ar 3 (fun i => mul ar (x i) (y i))) (sum ar 3 (fun i => mul ar (x i) (y i)))) =
  mul ar (sum ar 3 (fun i => mul ar (x i) (x i))) (sum ar 3 (fun i => mul ar (y i) (y i))).
Proof. unfold sum, total, cross. cbn -[add mul sub opp zero]. ring. Qed.
End Sums.

Lemma sum_ext T (ar : arith T) n f g : (forall k, k < n -> f k = g k) -> sum ar n f = sum ar n g.
Proof. intros E. unfold sum. f_equal. apply map_ext_in. intros k Hk. apply E. apply in_seq in Hk. lia. Qed.

Section Fields.
Variable T : Type.
Variable ar : arith T.
Variable inv : T -> T.
Hypothesis Fth : field_theory (zero ar) (one ar) (add ar) (mul ar) (sub ar) (opp ar) (div ar) inv eq.
Add Field laws_field : Fth.
Lemma normalize_laws s i : mul ar (mul ar i i) s = one ar ->
  let r := div ar (one ar) i in mul ar r r = s /\ forall x, mul ar (mul ar x i) r = x.
Proof.
  intros E r. subst r.
  assert (N : i <> zero ar).
  { intros ->. apply (F_1_neq_0 Fth). rewrite <- E. ring. }
  split; [| intros x; field; exact N].
  transitivity (mul ar (mul ar (div ar (one ar) i) (div ar (one ar) i)) (mul ar (mul ar i i) s)); [rewrite E; ring | field; exact N].
Qed.
Lemma normalize_square x i : mul ar (mul ar x i) (mul ar x i) = mul ar (mul ar i i) (mul ar x x).
Proof. ring. Qed.
End Fields.
