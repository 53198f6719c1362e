(** Reasoning principles for [Base]. *)
From Coq Require Import List Arith ZArith Lia Bool.
From Verif Require Import Base.
Import ListNotations.
Set Implicit Arguments.

(** [oks m P]: m returns normally with a result satisfying P. *)
Definition oks {A} (m : outcome A) (P : A -> Prop) : Prop := exists a, m = Ok a /\ P a.

Lemma oks_ok {A} (a : A) (P : A -> Prop) : P a -> oks (Ok a) P.
Proof. intros; exists a; auto. Qed.

Lemma bind_assoc {A B C} (m : outcome A) (f : A -> outcome B) (g : B -> outcome C) :
  bind (bind m f) g = bind m (fun a => bind (f a) g).
Proof. destruct m; auto. Qed.

Lemma oks_bind {A B} (m : outcome A) (k : A -> outcome B) (P : A -> Prop) (Q : B -> Prop) :
  oks m P -> (forall a, P a -> oks (k a) Q) -> oks (bind m k) Q.
Proof. intros [a [-> H]] H2. simpl. auto. Qed.

Lemma oks_mono {A} (m : outcome A) (P Q : A -> Prop) :
  oks m P -> (forall a, P a -> Q a) -> oks m Q.
Proof. intros [a [E H]] H2. exists a; auto. Qed.

Lemma oks_eq {A} (m : outcome A) (a : A) : m = Ok a -> oks m (fun x => x = a).
Proof. intros ->; exists a; auto. Qed.

Lemma oks_for_up {S} (I : nat -> S -> Prop) n f i s :
  I i s ->
  (forall k s, i <= k < i + n -> I k s -> oks (f k s) (I (k + 1))) ->
  oks (for_up n f i s) (I (i + n)).
Proof.
  revert i s; induction n as [|n IH]; intros i s H Hs; simpl.
  - exists s; rewrite Nat.add_0_r; auto.
  - eapply oks_bind; [apply Hs; [lia|exact H]|].
    intros s' H'. replace (i + Datatypes.S n) with (i + 1 + n) by lia.
    apply IH; [exact H'|]. intros; apply Hs; [lia|auto].
Qed.

Lemma oks_for_down {S} (I : nat -> S -> Prop) n f s :
  I n s ->
  (forall k s, k < n -> I (Datatypes.S k) s -> oks (f k s) (I k)) ->
  oks (for_down n f s) (I 0).
Proof.
  revert s; induction n as [|n IH]; intros s H Hs; simpl.
  - exists s; auto.
  - eapply oks_bind; [apply Hs; [lia|exact H]|].
    intros s' H'. apply IH; auto.
Qed.

Lemma check_if_ok chk c : c = false -> check_if chk c = Ok tt.
Proof. intros ->; unfold check_if; rewrite andb_false_r; auto. Qed.
Lemma error_if_ok c : c = false -> error_if c = Ok tt.
Proof. intros ->; reflexivity. Qed.
Lemma to_ix_nat n : to_ix (Z.of_nat n) = Ok n.
Proof. unfold to_ix. destruct (Z.ltb_spec (Z.of_nat n) 0); [lia|]. rewrite Nat2Z.id; auto. Qed.
Lemma sub_ix_ok a b : b <= a -> sub_ix a b = Ok (a - b).
Proof. intros; unfold sub_ix. destruct (Nat.leb_spec b a); [auto|lia]. Qed.

(** * Lists *)
Lemma upd_length {A} (l : list A) i x : length (upd l i x) = length l.
Proof. revert i; induction l; destruct i; simpl; auto. Qed.

Lemma upd_app {A} (p : list A) c s i x :
  i = length p -> upd (p ++ c :: s) i x = p ++ x :: s.
Proof. intros ->. induction p; simpl; congruence. Qed.

Lemma nth_error_app_mid {A} (p : list A) c s i :
  i = length p -> nth_error (p ++ c :: s) i = Some c.
Proof. intros ->. induction p; simpl; auto. Qed.

Lemma nth_error_upd_eq {A} (l : list A) i x : i < length l -> nth_error (upd l i x) i = Some x.
Proof. revert i; induction l; destruct i; simpl; intros; auto; try lia. apply IHl; lia. Qed.
Lemma nth_error_upd_ne {A} (l : list A) i j x : i <> j -> nth_error (upd l i x) j = nth_error l j.
Proof. revert i j; induction l; destruct i, j; simpl; intros; auto; try lia. Qed.
Lemma nth_upd_eq {A} (l : list A) i x d : i < length l -> nth i (upd l i x) d = x.
Proof. revert i; induction l; destruct i; simpl; intros; auto; try lia. apply IHl; lia. Qed.
Lemma nth_upd_ne {A} (l : list A) i j x d : i <> j -> nth j (upd l i x) d = nth j l d.
Proof. revert i j; induction l; destruct i, j; simpl; intros; auto; try lia. Qed.

Lemma aget_mid {A} (p : list A) c s i : i = length p -> aget (p ++ c :: s) i = Ok c.
Proof. intros; unfold aget; rewrite nth_error_app_mid; auto. Qed.
Lemma aset_mid {A} (p : list A) c s i x : i = length p -> aset (p ++ c :: s) i x = Ok (p ++ x :: s).
Proof.
  intros; unfold aset. destruct (Nat.ltb_spec i (length (p ++ c :: s))).
  - rewrite upd_app; auto.
  - rewrite app_length in *; simpl in *; lia.
Qed.
Lemma aget_nth {A} (l : list A) i d : i < length l -> aget l i = Ok (nth i l d).
Proof. intros; unfold aget. rewrite (nth_error_nth' l d); auto. Qed.
Lemma aget_oob {A} (l : list A) i : length l <= i -> aget l i = Fault FOob.
Proof. intros; unfold aget. apply nth_error_None in H. rewrite H; auto. Qed.
Lemma aset_ok {A} (l : list A) i x : i < length l -> aset l i x = Ok (upd l i x).
Proof. intros; unfold aset. destruct (Nat.ltb_spec i (length l)); [auto|lia]. Qed.

Lemma split_at {A} (l : list A) n : n <= length l ->
  exists a b, l = a ++ b /\ length a = n.
Proof.
  intros. exists (firstn n l), (skipn n l).
  rewrite firstn_skipn. split; auto. apply firstn_length_le; auto.
Qed.

Lemma split_nth {A} (l : list A) n : n < length l ->
  exists a x b, l = a ++ x :: b /\ length a = n.
Proof.
  intros. destruct (split_at l (n:=n)) as [a [b [-> Ha]]]; [lia|].
  destruct b as [|x b].
  - rewrite app_nil_r in H. lia.
  - exists a, x, b; auto.
Qed.

Lemma repeat_app_add {A} (x : A) n m : repeat x (n + m) = repeat x n ++ repeat x m.
Proof. induction n; simpl; congruence. Qed.

Lemma repeat_snoc {A} (x : A) n : repeat x (S n) = repeat x n ++ [x].
Proof. replace (S n) with (n + 1) by lia. rewrite repeat_app_add; auto. Qed.

Lemma last_snoc {A} (l : list A) n : length l = S n -> exists a x, l = a ++ [x] /\ length a = n.
Proof.
  intros. destruct (split_nth l (n:=n)) as [a [x [b [-> Ha]]]]; [lia|].
  rewrite app_length in H; simpl in H. destruct b; [|simpl in H; lia].
  eauto.
Qed.

Lemma firstn_app_exact {A} (a b : list A) n : n = length a -> firstn n (a ++ b) = a.
Proof. intros ->. rewrite firstn_app, Nat.sub_diag, firstn_all. simpl. apply app_nil_r. Qed.
Lemma skipn_app_exact {A} (a b : list A) n : n = length a -> skipn n (a ++ b) = b.
Proof. intros ->. rewrite skipn_app, Nat.sub_diag, skipn_all. reflexivity. Qed.

(** Normalise lengths of concatenations. *)
Ltac len := repeat (rewrite ?app_length, ?map_length, ?repeat_length, ?firstn_length, ?skipn_length,
                            ?upd_length, ?rev_length, ?seq_length in *; simpl length in *); try lia.
(** Equality of concatenations up to associativity. *)
Ltac lapp := repeat rewrite <- app_assoc; simpl; repeat rewrite <- app_assoc; simpl.
