(** Logical view of a buffer, and the rules of the primitive lifetime operations.

    A logical buffer is a list of [LV v] (the program logically owns a live value here), [LN]
    (no object) and [LM] (moved-from). [mem triv b l] relates a physical buffer to a logical one;
    for trivial types slots without an object may physically contain any bytes. *)
From Coq Require Import List Arith ZArith Lia Bool.
From Verif Require Import Base BaseProofs Mem.
Import ListNotations.
Set Implicit Arguments.

Inductive lcell (V : Type) : Type := LV (v : V) | LN | LM.
Arguments LV {V} v. Arguments LN {V}. Arguments LM {V}.

Definition crel {V} (triv : bool) (c : cell V) (l : lcell V) : Prop :=
  match l with
  | LV v => c = Obj v
  | LN => triv = true \/ c = Raw
  | LM => triv = true \/ c = Hollow
  end.

Definition mem {V} (triv : bool) (b : buf V) (l : list (lcell V)) : Prop := Forall2 (crel triv) b l.

Definition live {V} (c : lcell V) : Prop := c <> LN.
Definition free {V} (c : lcell V) : Prop := match c with LV _ => False | _ => True end.

Section Shape.
Variable V : Type.
Variable triv : bool.
Notation mem := (@mem V triv).

Lemma mem_length b l : mem b l -> length b = length l.
Proof. induction 1; simpl; congruence. Qed.

Lemma mem_app_inv b l1 l2 : mem b (l1 ++ l2) ->
  exists b1 b2, b = b1 ++ b2 /\ mem b1 l1 /\ mem b2 l2.
Proof. intros H. apply Forall2_app_inv_r in H. destruct H as (b1 & b2 & H1 & H2 & E). eauto. Qed.

Lemma mem_app b1 b2 l1 l2 : mem b1 l1 -> mem b2 l2 -> mem (b1 ++ b2) (l1 ++ l2).
Proof. apply Forall2_app. Qed.

Lemma mem_split b p c s : mem b (p ++ c :: s) ->
  exists bp bc bs, b = bp ++ bc :: bs /\ mem bp p /\ crel triv bc c /\ mem bs s /\ length bp = length p.
Proof.
  intros H. apply mem_app_inv in H. destruct H as (b1 & b2 & -> & H1 & H2).
  inversion H2; subst. exists b1, x, l. repeat split; auto. apply mem_length; auto.
Qed.

Lemma mem_mk bp bc bs p c s : mem bp p -> crel triv bc c -> mem bs s -> mem (bp ++ bc :: bs) (p ++ c :: s).
Proof. intros. apply mem_app; auto. constructor; auto. Qed.

Lemma mem_cast b l l' : mem b l -> l = l' -> mem b l'.
Proof. intros; subst; auto. Qed.

End Shape.

Section Rules.
Variable V : Type.
Variable triv : bool.
Notation mem := (@mem V triv).

Lemma rd_ok b p v s i : mem b (p ++ LV v :: s) -> i = length p -> rd b i = Ok v.
Proof.
  intros H ->. apply mem_split in H. destruct H as (bp & bc & bs & -> & H1 & H2 & H3 & H4).
  unfold rd. rewrite aget_mid by auto. simpl in *. subst; auto.
Qed.

Lemma rd_nth b l i v : mem b l -> nth_error l i = Some (LV v) -> rd b i = Ok v.
Proof.
  intros H E. apply nth_error_split in E. destruct E as (p & s & -> & <-).
  eapply rd_ok; eauto.
Qed.

Lemma place_ok b p c s i x lx : mem b (p ++ c :: s) -> i = length p -> free c -> crel triv x lx ->
  oks (place triv b i x) (fun b' => mem b' (p ++ lx :: s)).
Proof.
  intros H -> F X. apply mem_split in H. destruct H as (bp & bc & bs & -> & H1 & H2 & H3 & H4).
  unfold place. rewrite aget_mid by auto. simpl bind.
  assert (G : aset (bp ++ bc :: bs) (length p) x = Ok (bp ++ x :: bs)) by (apply aset_mid; auto).
  assert (R : mem (bp ++ x :: bs) (p ++ lx :: s)) by (apply mem_mk; auto).
  destruct bc; rewrite ?G; try (apply oks_ok; exact R).
  destruct triv eqn:T; [apply oks_ok; exact R|].
  exfalso. destruct c; simpl in *; intuition discriminate.
Qed.

Lemma construct_ok b p c s i v : mem b (p ++ c :: s) -> i = length p -> free c ->
  oks (construct triv b i v) (fun b' => mem b' (p ++ LV v :: s)).
Proof. intros. eapply place_ok; eauto. simpl; auto. Qed.

Lemma take_ok b p v s i : mem b (p ++ LV v :: s) -> i = length p ->
  oks (take triv b i) (fun r => fst r = Obj v /\ mem (snd r) (p ++ LM :: s)).
Proof.
  intros H ->. apply mem_split in H. destruct H as (bp & bc & bs & -> & H1 & H2 & H3 & H4).
  simpl in H2; subst bc.
  unfold take. rewrite aget_mid by auto. simpl bind.
  destruct triv eqn:T.
  - apply oks_ok. simpl. split; auto. apply mem_mk; auto. simpl; auto.
  - rewrite aset_mid by auto. simpl. apply oks_ok. simpl. split; auto. apply mem_mk; simpl; auto.
Qed.

(** Moving with destination after the source. *)
Lemma mconstruct_up b p v m c s dst src :
  mem b (p ++ LV v :: m ++ c :: s) -> src = length p -> dst = length p + 1 + length m -> free c ->
  oks (mconstruct triv b dst src) (fun b' => mem b' (p ++ LM :: m ++ LV v :: s)).
Proof.
  intros H -> -> F. unfold mconstruct.
  eapply oks_bind; [eapply take_ok; eauto|].
  intros [x b1] [E M]. simpl in E, M. subst x.
  eapply oks_mono.
  - eapply place_ok with (p := p ++ LM :: m) (c := c) (s := s) (lx := LV v); auto.
    + eapply mem_cast; [exact M|]. lapp; auto.
    + len.
    + simpl; auto.
  - intros b' Hb. eapply mem_cast; [exact Hb|]. lapp; auto.
Qed.

(** Moving with destination before the source. *)
Lemma mconstruct_down b p v m c s dst src :
  mem b (p ++ c :: m ++ LV v :: s) -> dst = length p -> src = length p + 1 + length m -> free c ->
  oks (mconstruct triv b dst src) (fun b' => mem b' (p ++ LV v :: m ++ LM :: s)).
Proof.
  intros H -> -> F. unfold mconstruct.
  eapply oks_bind.
  - eapply take_ok with (p := p ++ c :: m) (s := s) (v := v).
    + eapply mem_cast; [exact H|]. lapp; auto.
    + len.
  - intros [x b1] [E M]. simpl in E, M. subst x.
    eapply place_ok with (p := p) (c := c) (s := m ++ LM :: s) (lx := LV v); simpl; auto.
    eapply mem_cast; [exact M|]. lapp; auto.
Qed.

Lemma store_ok b p c s i x lx : mem b (p ++ c :: s) -> i = length p -> live c -> crel triv x lx ->
  oks (store triv b i x) (fun b' => mem b' (p ++ lx :: s)).
Proof.
  intros H -> F X. apply mem_split in H. destruct H as (bp & bc & bs & -> & H1 & H2 & H3 & H4).
  unfold store. rewrite aget_mid by auto. simpl bind.
  assert (G : aset (bp ++ bc :: bs) (length p) x = Ok (bp ++ x :: bs)) by (apply aset_mid; auto).
  assert (R : mem (bp ++ x :: bs) (p ++ lx :: s)) by (apply mem_mk; auto).
  destruct bc; rewrite ?G; try (apply oks_ok; exact R).
  destruct triv eqn:T; [apply oks_ok; exact R|].
  exfalso. unfold live in F. destruct c; simpl in *; intuition discriminate.
Qed.

Lemma assign_ok b p c s i v : mem b (p ++ c :: s) -> i = length p -> live c ->
  oks (assign triv b i v) (fun b' => mem b' (p ++ LV v :: s)).
Proof. intros. eapply store_ok; eauto. simpl; auto. Qed.

Lemma massign_down b p v m c s dst src :
  mem b (p ++ c :: m ++ LV v :: s) -> dst = length p -> src = length p + 1 + length m -> live c ->
  oks (massign triv b dst src) (fun b' => mem b' (p ++ LV v :: m ++ LM :: s)).
Proof.
  intros H -> -> F. unfold massign.
  eapply oks_bind.
  - eapply take_ok with (p := p ++ c :: m) (s := s) (v := v).
    + eapply mem_cast; [exact H|]. lapp; auto.
    + len.
  - intros [x b1] [E M]. simpl in E, M. subst x.
    eapply store_ok with (p := p) (c := c) (s := m ++ LM :: s) (lx := LV v); simpl; auto.
    eapply mem_cast; [exact M|]. lapp; auto.
Qed.

Lemma destroy1_ok b p c s i : mem b (p ++ c :: s) -> i = length p -> live c ->
  oks (destroy1 triv b i) (fun b' => mem b' (p ++ LN :: s)).
Proof.
  intros H -> F. apply mem_split in H. destruct H as (bp & bc & bs & -> & H1 & H2 & H3 & H4).
  unfold destroy1. rewrite aget_mid by auto. simpl bind.
  destruct triv eqn:T.
  - apply oks_ok. apply mem_mk; simpl; auto.
  - assert (G : aset (bp ++ bc :: bs) (length p) Raw = Ok (bp ++ Raw :: bs)) by (apply aset_mid; auto).
    assert (R : MemProofs.mem false (bp ++ Raw :: bs) (p ++ LN :: s)) by (apply mem_mk; simpl; auto).
    destruct bc; rewrite ?G; try (apply oks_ok; exact R).
    exfalso. unfold live in F. destruct c; simpl in *; intuition discriminate.
Qed.

Lemma mem_repeat_raw n : mem (repeat Raw n) (repeat LN n).
Proof. induction n; simpl; constructor; simpl; auto. Qed.

End Rules.

Lemma live_LV {V} (vs : list V) : Forall live (map LV vs).
Proof. apply Forall_forall. intros x H. apply in_map_iff in H. destruct H as (v & <- & _). discriminate. Qed.
Lemma live_LM {V} n : Forall (@live V) (repeat LM n).
Proof. apply Forall_forall. intros x H. apply repeat_spec in H. subst; discriminate. Qed.
Lemma free_LN {V} n : Forall (@free V) (repeat LN n).
Proof. apply Forall_forall. intros x H. apply repeat_spec in H. subst; simpl; auto. Qed.
#[global] Hint Resolve live_LV live_LM free_LN : core.
