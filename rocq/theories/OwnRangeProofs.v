(** A call with references into the container itself does the same as the call with copies of the values,
    if the slots named still hold these values when they are read. *)
From Coq Require Import List Arith ZArith Lia Bool.
From Verif Require Import Base BaseProofs Mem MemProofs BufferManip Array AoA OwnRange.
From Verif Require ArrayManip.
Import ListNotations.
Set Implicit Arguments.
Unset Strict Implicit.

Ltac st E := match type of E with
  | bind ?m _ = Ok _ => let x := fresh "x" in destruct m as [x| |] eqn:?; cbn [bind] in E; try discriminate
  end.

Lemma for_up_inv S (P : S -> Prop) f n : forall i (s s' : S),
  (forall x a b, i <= x < i + n -> f x a = Ok b -> P a -> P b) -> for_up n f i s = Ok s' -> P s -> P s'.
Proof.
  induction n as [|n IH]; intros i s s' H E Hs; cbn [for_up] in E; [injection E as <-; exact Hs|].
  st E. eapply IH; [|exact E|]; [intros y a b Hy; apply H; lia|]. eapply H; [|exact Heqo|exact Hs]. lia.
Qed.
Lemma for_down_inv S (P : S -> Prop) f n : forall (s s' : S),
  (forall x a b, x < n -> f x a = Ok b -> P a -> P b) -> for_down n f s = Ok s' -> P s -> P s'.
Proof.
  induction n as [|n IH]; intros s s' H E Hs; cbn [for_down] in E; [injection E as <-; exact Hs|].
  st E. eapply IH; [|exact E|]; [intros y a b Hy; apply H; lia|]. eapply H; [|exact Heqo|exact Hs]. lia.
Qed.

Section Manip.
Variable V : Type.
Variable chk triv : bool.
Notation buf := (buf V).

Lemma aset_nth A (l l' : list A) i x j : aset l i x = Ok l' -> i <> j -> nth_error l' j = nth_error l j.
Proof. unfold aset. destruct (i <? length l); [|discriminate]. intros [= <-] N. apply nth_error_upd_ne. exact N. Qed.
Lemma place_nth (b b' : buf) i c j : place triv b i c = Ok b' -> i <> j -> nth_error b' j = nth_error b j.
Proof.
  unfold place. intros E N. st E. destruct x; [|destruct triv; [|discriminate]|]; eapply aset_nth; eauto.
Qed.
Lemma construct_nth (b b' : buf) i v j : construct triv b i v = Ok b' -> i <> j -> nth_error b' j = nth_error b j.
Proof. apply place_nth. Qed.
Lemma destroy1_nth (b b' : buf) i j : destroy1 triv b i = Ok b' -> i <> j -> nth_error b' j = nth_error b j.
Proof.
  unfold destroy1. intros E N. st E. destruct triv; [injection E as <-; reflexivity|].
  destruct x; [discriminate| |]; eapply aset_nth; eauto.
Qed.
Lemma mconstruct_nth (b b' : buf) d s j : mconstruct triv b d s = Ok b' -> d <> j -> s <> j -> nth_error b' j = nth_error b j.
Proof.
  unfold mconstruct, take. intros E N N'. st E. st Heqo. destruct x as [c b1]. apply (place_nth (j := j)) in E; [|exact N]. rewrite E.
  destruct triv; [injection Heqo as _ <-; reflexivity|]. destruct x0; [discriminate| |].
  - st Heqo. injection Heqo as _ <-. eapply aset_nth; eauto.
  - injection Heqo as _ <-. reflexivity.
Qed.
Lemma rd_nth_eq (b b' : buf) j : nth_error b' j = nth_error b j -> rd b' j = rd b j.
Proof. unfold rd, aget. intros ->. reflexivity. Qed.

(** What shiftUp leaves alone. *)
Lemma shiftUp_nth (b b' : buf) p size index n j :
  ArrayManip.shiftUp chk triv b p size index n = Ok b' -> j < p + index \/ p + size + n <= j -> nth_error b' j = nth_error b j.
Proof.
  unfold ArrayManip.shiftUp. intros E H. st E. destruct (Nat.eqb_spec n 0); [injection E as <-; reflexivity|].
  st E.
  assert (E1 : nth_error x0 j = nth_error b j).
  { refine (@for_down_inv _ (fun c => nth_error c j = nth_error b j) _ _ _ _ _ Heqo0 eq_refl). intros y c d Hy Ey Hc.
    rewrite <- Hc. eapply mconstruct_nth; [exact Ey| |]; lia. }
  rewrite <- E1. unfold ArrayManip.destroy in E.
  refine (@for_up_inv _ (fun c => nth_error c j = nth_error x0 j) _ _ _ _ _ _ E eq_refl). intros y c d Hy Ey Hc.
  rewrite <- Hc. eapply destroy1_nth; [exact Ey|]. destruct (Nat.ltb_spec (index + n) size); lia.
Qed.

(** Copying from slots which are not written. *)
Definition reads (b : buf) (q : nat) (vs : list V) : Prop := forall x v, nth_error vs x = Some v -> rd b (q + x) = Ok v.
Definition apart (q p n : nat) : Prop := q + n <= p \/ p + n <= q.
Lemma copyOwn_copy vs : forall (b : buf) q p, reads b q vs -> apart q p (length vs) ->
  copyOwn triv (length vs) b q p = ArrayManip.uninitializedCopy triv vs b p.
Proof.
  induction vs as [|v vs IH]; intros b q p R D; [reflexivity|]. cbn [length copyOwn ArrayManip.uninitializedCopy].
  pose proof (R 0 v eq_refl) as R0. rewrite Nat.add_0_r in R0. rewrite R0. cbn [bind].
  destruct (construct triv b p v) as [b'| |] eqn:E; cbn [bind]; auto. apply IH.
  - intros x w Hx. pose proof (R (S x) w Hx) as Rx. assert (x < length vs) by (apply nth_error_Some; congruence).
    rewrite <- Rx. replace (q + S x) with (q + 1 + x) by lia. apply rd_nth_eq. eapply construct_nth; [exact E|].
    unfold apart in D. cbn [length] in D. lia.
  - unfold apart in *. cbn [length] in D. lia.
Qed.
Lemma append_loop_copy vs : forall (b : buf) p size i,
  ArrayManip.append_loop triv b p size i vs = (b' <- ArrayManip.uninitializedCopy triv vs b (p + size + i) ;; Ok (b', i + length vs)).
Proof.
  induction vs as [|v vs IH]; intros b p size i; cbn [ArrayManip.append_loop ArrayManip.uninitializedCopy bind length].
  - rewrite Nat.add_0_r. reflexivity.
  - destruct (construct triv b (p + size + i) v) as [b'| |]; cbn [bind]; auto. rewrite IH.
    replace (p + size + (i + 1)) with (p + size + i + 1) by lia. replace (i + 1 + length vs) with (i + S (length vs)) by lia. reflexivity.
Qed.
Lemma appendOwn_append vs (b : buf) p size q : reads b q vs -> apart q (p + size) (length vs) ->
  appendOwn triv b p size q (length vs) = ArrayManip.append triv b p size vs.
Proof.
  intros R D. unfold appendOwn, ArrayManip.append. rewrite append_loop_copy, Nat.add_0_r, copyOwn_copy by auto. reflexivity.
Qed.
(** [still q n]: slots [q .. q + n) are not touched by an insertion of [n] values at [p + index]. *)
Definition still (p size index q n : nat) : Prop := q + n <= p + index \/ p + size + n <= q.
Lemma still_reads vs (b b' : buf) p size index q : reads b q vs ->
  ArrayManip.shiftUp chk triv b p size index (length vs) = Ok b' -> still p size index q (length vs) -> reads b' q vs.
Proof.
  intros R E D x v Hx. rewrite <- (R x v Hx). apply rd_nth_eq. assert (x < length vs) by (apply nth_error_Some; congruence).
  eapply shiftUp_nth; [exact E|]. unfold still in D. lia.
Qed.
Lemma insertOwn_insert vs (b : buf) p size index q : reads b q vs -> index <= size -> still p size index q (length vs) ->
  insertOwn chk triv b p size index q (length vs) = ArrayManip.insert chk triv b p size index vs.
Proof.
  intros R L D. unfold insertOwn, ArrayManip.insert. destruct (ArrayManip.check_insert_bounds chk size index); cbn [bind]; auto.
  destruct (ArrayManip.shiftUp chk triv b p size index (length vs)) as [b1| |] eqn:E; cbn [bind]; auto.
  apply copyOwn_copy; [eapply still_reads; eauto|]. unfold still, apart in *. lia.
Qed.
Lemma emplaceOwn_emplace v (b : buf) p size index q : rd b q = Ok v -> still p size index q 1 ->
  emplaceOwn chk triv b p size index q = ArrayManip.emplace chk triv b p size index v.
Proof.
  intros R D. unfold emplaceOwn, ArrayManip.emplace. destruct (ArrayManip.check_insert_bounds chk size index); cbn [bind]; auto.
  destruct (ArrayManip.shiftUp chk triv b p size index 1) as [b1| |] eqn:E; cbn [bind]; auto.
  rewrite (@rd_nth_eq b b1 q), R; [reflexivity|]. eapply shiftUp_nth; [exact E|]. unfold still in D. lia.
Qed.
Lemma emplaceBackOwn_emplaceBack v (b : buf) p size q : rd b q = Ok v ->
  emplaceBackOwn triv b p size q = ArrayManip.emplaceBack triv b p size v.
Proof. intros R. unfold emplaceBackOwn, ArrayManip.emplaceBack. rewrite R. reflexivity. Qed.
End Manip.
