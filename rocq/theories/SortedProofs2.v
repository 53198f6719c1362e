(** Insertion into and removal from a sorted range, with callbacks.

    The proofs are done once for elements of a type [P] which carry a key: [P] is the value type for
    the set containers and the type of column-entry pairs for CRSMatrix. [RX p s l x] relates the state
    owned by the callbacks to the logical elements [l]; [None] is a position without an element. *)
From Coq Require Import List Arith ZArith Lia Bool Sorting.Sorted.
From Verif Require Import Base BaseProofs Mem MemProofs ArrayManipProofs Sorted SortedSpec SortedProofs.
From Verif Require ArrayManip.
Import ListNotations.
Set Implicit Arguments.
Unset Strict Implicit.

Section Pure.
Variable V P : Type.
Variable lt eqb : V -> V -> bool.
Variable key : P -> V.
Hypothesis T : total_order lt eqb.
Let W := to_swo T.
Notation incr l := (StronglySorted (fun x y => lt x y = true) l).
Notation pincr l := (StronglySorted (fun x y => lt (key x) (key y) = true) l).

Lemma map_key_incr es : incr (map key es) <-> pincr es.
Proof.
  induction es as [|e es IH]; simpl; split; intros H; try constructor; inversion H; subst; try (apply IH; auto).
  - apply Forall_map in H3. auto.
  - apply Forall_map. auto.
Qed.

Lemma eqb_true x y : eqb x y = true <-> x = y. Proof. apply T. Qed.
Lemma eqb_refl x : eqb x x = true. Proof. apply eqb_true; auto. Qed.
Lemma lt_neq x y : lt x y = true -> eqb x y = false.
Proof.
  intros H. destruct (eqb x y) eqn:E; auto. apply eqb_true in E. subst. rewrite (irr W) in H. discriminate.
Qed.
Lemma lt_neq' x y : lt x y = true -> eqb y x = false.
Proof.
  intros H. destruct (eqb y x) eqn:E; auto. apply eqb_true in E. subst. rewrite (irr W) in H. discriminate.
Qed.
Lemma ge_neq x y : lt x y = false -> eqb x y = false -> lt y x = true.
Proof.
  intros H E. destruct (lt y x) eqn:L; auto. rewrite (to_total T (x:=x) (y:=y)) in E by auto. rewrite eqb_refl in E. discriminate.
Qed.

Definition present (es : list P) (v : V) : bool := existsb (fun e => eqb (key e) v) es.
Fixpoint pinsert (w : P) (es : list P) : list P :=
  match es with
  | [] => [w]
  | e :: t => if lt (key e) (key w) then e :: pinsert w t
              else if eqb (key e) (key w) then e :: t else w :: e :: t
  end.
Definition pdiff (es : list P) (vs : list V) : list P := filter (fun e => negb (existsb (eqb (key e)) vs)) es.
Definition absent (es ws : list P) : nat := length (filter (fun w => negb (present es (key w))) ws).

Notation less A v := (Forall (fun e => lt (key e) v = true) A).
Notation geq B v := (Forall (fun e => lt (key e) v = false) B).

Lemma psplit es v : pincr es -> exists A B, es = A ++ B /\ less A v /\ geq B v.
Proof.
  intros H. apply map_key_incr in H. apply (incr_sorted W) in H.
  destruct (split_less W v H) as (a & c & E & Fa & Fc).
  apply map_eq_app in E. destruct E as (A & B & -> & <- & <-). exists A, B. repeat split; auto.
  - apply Forall_map in Fa. auto.
  - apply Forall_map in Fc. auto.
Qed.

Lemma present_app A B v : present (A ++ B) v = (present A v || present B v)%bool.
Proof. apply existsb_app. Qed.
Lemma present_less A v : less A v -> present A v = false.
Proof. induction 1; simpl; auto. rewrite (lt_neq H). auto. Qed.
Lemma present_head e B v : pincr (e :: B) -> lt (key e) v = false -> present (e :: B) v = eqb (key e) v.
Proof.
  intros I H. simpl. destruct (eqb (key e) v) eqn:E; auto. simpl. pose proof (ge_neq H E) as L.
  inversion I; subst. clear I H H2. unfold present. induction H3; simpl; auto.
  rewrite (lt_neq' (trans W L H)). auto.
Qed.
Lemma present_in es v : present es v = true <-> In v (map key es).
Proof.
  unfold present. rewrite existsb_exists, in_map_iff. split; intros (e & H1 & H2); exists e.
  - apply eqb_true in H2. auto.
  - split; auto. apply eqb_true. auto.
Qed.

Lemma pinsert_less A B w : less A (key w) -> pinsert w (A ++ B) = A ++ pinsert w B.
Proof. induction 1; simpl; auto. rewrite H, IHForall. auto. Qed.
Lemma pinsert_absent B w : Forall (fun e => lt (key w) (key e) = true) B -> pinsert w B = w :: B.
Proof.
  destruct B as [|e B]; simpl; auto. intros H. inversion H; subst. rewrite (lt_le W H2), (lt_neq' H2). auto.
Qed.
Lemma pinsert_present w es : pincr es -> present es (key w) = true -> pinsert w es = es.
Proof.
  intros I H. destruct (psplit (key w) I) as (A & B & -> & LA & GB).
  rewrite present_app, (present_less LA) in H. rewrite pinsert_less by auto. f_equal.
  destruct B as [|e B]; [discriminate|]. inversion GB; subst. apply strong_app in I. destruct I as (_ & I & _).
  rewrite orb_false_l, present_head in H by auto. simpl. rewrite H2, H. auto.
Qed.


Lemma pinsert_keys w es v : In v (map key (pinsert w es)) <-> v = key w \/ In v (map key es).
Proof.
  induction es as [|f es IH]; simpl.
  - intuition.
  - destruct (lt (key f) (key w)); simpl.
    + rewrite IH. intuition.
    + destruct (eqb (key f) (key w)) eqn:E; simpl.
      * apply eqb_true in E. rewrite E. intuition.
      * intuition.
Qed.

Lemma pinsert_incr w es : pincr es -> pincr (pinsert w es).
Proof.
  intros H. apply map_key_incr. apply map_key_incr in H.
  induction es as [|f es IH]; simpl; [repeat constructor|].
  inversion H; subst. destruct (lt (key f) (key w)) eqn:E; simpl.
  - constructor; auto. apply Forall_forall. intros v Hv. apply pinsert_keys in Hv. destruct Hv as [->|Hv]; auto.
    rewrite Forall_forall in H3. auto.
  - destruct (eqb (key f) (key w)) eqn:E2; simpl; auto. constructor; auto. pose proof (ge_neq E E2) as L.
    constructor; auto. eapply Forall_impl; [|eassumption]. intros v Hv. cbn beta in *. eapply (trans W); eauto.
Qed.

Lemma pinsert_length w es : pincr es -> length (pinsert w es) = length es + (if present es (key w) then 0 else 1).
Proof.
  intros I. destruct (psplit (key w) I) as (A & B & -> & LA & GB).
  rewrite present_app, (present_less LA), pinsert_less by auto. len.
  destruct B as [|e B]; simpl; [lia|]. inversion GB; subst. rewrite H1.
  apply strong_app in I. destruct I as (_ & I & _).
  pose proof (present_head I H1) as E. simpl in E. rewrite E. destruct (eqb (key e) (key w)); simpl; lia.
Qed.

Lemma pinserts_incr ws es : pincr es -> pincr (fold_right pinsert es ws).
Proof. intros H. induction ws; simpl; auto. apply pinsert_incr. auto. Qed.
Lemma pinserts_keys ws es v : In v (map key (fold_right pinsert es ws)) <-> In v (map key ws) \/ In v (map key es).
Proof. induction ws as [|w ws IH]; simpl; [tauto|]. rewrite pinsert_keys, IH. intuition. Qed.

Lemma pinserts_length ws es : pincr es -> pincr ws -> length (fold_right pinsert es ws) = length es + absent es ws.
Proof.
  intros I Iw. induction Iw as [|w ws Iw IH F]; simpl; [unfold absent; simpl; lia|].
  rewrite pinsert_length by (apply pinserts_incr; auto). rewrite IH. unfold absent. simpl.
  replace (present (fold_right pinsert es ws) (key w)) with (present es (key w)).
  - destruct (present es (key w)); simpl; lia.
  - apply eq_true_iff_eq. rewrite !present_in, pinserts_keys. split; auto.
    intros [H|H]; auto. apply in_map_iff in H. destruct H as (w' & E & H). rewrite Forall_forall in F.
    specialize (F _ H). cbn beta in F. rewrite E, (irr W) in F. discriminate.
Qed.

Lemma pinserts_nil ws : pincr ws -> fold_right pinsert [] ws = ws.
Proof.
  induction 1 as [|w ws Iw IH F]; simpl; auto. rewrite IH. apply pinsert_absent. auto.
Qed.

Lemma absent_nil ws : absent [] ws = length ws.
Proof. unfold absent. induction ws; simpl; auto. Qed.
Lemma pinserts_zero es ws : pincr es -> absent es ws = 0 -> fold_right pinsert es ws = es.
Proof.
  intros I. unfold absent. induction ws as [|w ws IH]; simpl; auto. intros N.
  destruct (present es (key w)) eqn:Pr; simpl in N; [|lia]. rewrite IH by auto. apply pinsert_present; auto.
Qed.

Lemma pdiff_app A B vs : pdiff (A ++ B) vs = pdiff A vs ++ pdiff B vs.
Proof. apply filter_app. Qed.
Lemma pdiff_in es vs e : In e (pdiff es vs) <-> In e es /\ ~ In (key e) vs.
Proof.
  unfold pdiff. rewrite filter_In. split; intros [H1 H2]; split; auto.
  - intros H. apply negb_true_iff in H2. assert (existsb (eqb (key e)) vs = true); [|congruence].
    apply existsb_exists. exists (key e). split; auto. apply eqb_refl.
  - apply negb_true_iff. destruct (existsb (eqb (key e)) vs) eqn:E; auto. exfalso. apply H2.
    apply existsb_exists in E. destruct E as (x & Hx & E). apply eqb_true in E. subst; auto.
Qed.
Lemma pdiff_none es vs : (forall e, In e es -> ~ In (key e) vs) -> pdiff es vs = es.
Proof.
  intros H. induction es as [|e es IH]; auto. unfold pdiff. simpl.
  replace (existsb (eqb (key e)) vs) with false; simpl.
  - f_equal. apply IH. intros. apply H. simpl; auto.
  - symmetry. destruct (existsb (eqb (key e)) vs) eqn:E; auto. exfalso. apply (H e); simpl; auto.
    apply existsb_exists in E. destruct E as (x & Hx & E). apply eqb_true in E. subst; auto.
Qed.
Lemma pdiff_ext es vs vs' : (forall e, In e es -> In (key e) vs <-> In (key e) vs') -> pdiff es vs = pdiff es vs'.
Proof.
  intros H. unfold pdiff. apply filter_ext_in. intros e He. f_equal. apply eq_true_iff_eq.
  rewrite !existsb_exists. specialize (H e He).
  split; intros (x & Hx & E); apply eqb_true in E; subst x; exists (key e); rewrite eqb_refl; intuition.
Qed.
Lemma pdiff_incr es vs : pincr es -> pincr (pdiff es vs).
Proof.
  induction 1 as [|e es I IH F]; [constructor|]. unfold pdiff. simpl. destruct (negb _); auto. constructor; auto.
  apply Forall_forall. intros x Hx. apply filter_In in Hx. rewrite Forall_forall in F. apply F. tauto.
Qed.
Lemma pdiff_length es vs : length (pdiff es vs) <= length es.
Proof. unfold pdiff. induction es; simpl; auto. destruct (negb _); simpl; lia. Qed.
End Pure.
