(** A ChaiBuffer without a pointer record is null: no pointer and no capacity, whatever program made it. *)
From Coq Require Import List Arith Lia Bool.
From Verif Require Import Base BaseProofs Chai ChaiSpec ChaiProofs.
Import ListNotations.
Set Implicit Arguments.
Unset Strict Implicit.

Section Null.
Variable V : Type.
Variable n : nat.
Definition nullish (c : cbuf) : Prop := c_rec c = None -> c_ptr c = None /\ c_cap c = 0.
Definition Nulls (w : world V) : Prop := Forall nullish (w_bufs w).

Ltac st E := match type of E with
  | bind ?m _ = Ok _ => let x := fresh "x" in destruct m as [x| |] eqn:?; cbn [bind] in E; try discriminate
  end.

Lemma fall_upd l i c : Forall nullish l -> nullish c -> Forall nullish (upd l i c).
Proof. intros F H. revert i. induction F as [|x l Hx F IH]; intros [|i]; cbn; constructor; auto. Qed.
Lemma fall_get l i c : Forall nullish l -> aget l i = Ok c -> nullish c.
Proof. intros F. unfold aget. destruct (nth_error l i) eqn:E; [|discriminate]. intros [= <-]. rewrite Forall_forall in F. eapply F, nth_error_In. exact E. Qed.
Lemma set_buf_nulls (w w' : world V) i c : Nulls w -> nullish c -> set_buf w i c = Ok w' -> Nulls w'.
Proof.
  unfold Nulls, set_buf, aset. intros F H E. destruct (i <? length (w_bufs w)); [|discriminate]. cbn [bind] in E. injection E as <-. cbn. apply fall_upd; auto.
Qed.
Lemma allocate_bufs (w w' : world V) ri s b : manager_allocate w ri s = Ok (w', b) -> w_bufs w' = w_bufs w.
Proof. unfold manager_allocate. intros E. do 3 st E. injection E as <- _. reflexivity. Qed.
Lemma move_bufs (w w' : world V) ri s b : manager_move n w ri s = Ok (w', b) -> w_bufs w' = w_bufs w.
Proof.
  unfold manager_move. intros E. do 2 st E. destruct (x0 =? s).
  - do 2 st E. injection E as <- _. reflexivity.
  - do 2 st E. destruct x2 as [w1 b1].
    assert (B : w_bufs w1 = w_bufs w).
    { destruct x1; [injection Heqo2 as <- _; reflexivity|eapply allocate_bufs; exact Heqo2]. }
    do 2 st E. destruct x3.
    + do 6 st E. injection E as <- _. exact B.
    + injection E as <- _. exact B.
Qed.
Lemma free_bufs (w w' : world V) ri : manager_free w ri = Ok w' -> w_bufs w' = w_bufs w.
Proof. unfold manager_free. intros E. do 3 st E. injection E as <-. reflexivity. Qed.
Lemma null_nullish c : nullish (null_buf c).
Proof. intros _. split; reflexivity. Qed.
Lemma some_nullish p k r c : nullish (mkBuf p k (Some r) c).
Proof. intros H. discriminate. Qed.
Hint Resolve null_nullish some_nullish : core.

Lemma chai_move_nulls (w w' : world V) h s t : Nulls w -> chai_move n w h s t = Ok w' -> Nulls w'.
Proof.
  unfold chai_move. intros F E. st E. destruct s as [s|]; [|injection E as <-; exact F]. destruct (c_rec x) as [ri|] eqn:Er; [|injection E as <-; exact F].
  destruct (c_cap x =? 0); [injection E as <-; exact F|]. st E. destruct x0 as [w1 b]. apply move_bufs in Heqo0. do 3 st E.
  eapply set_buf_nulls; [| |exact E]; [unfold Nulls; cbn; rewrite Heqo0; exact F|auto].
Qed.
Lemma touch_bufs (w w' : world V) h s : chai_touch w h s = Ok w' -> w_bufs w' = w_bufs w.
Proof. unfold chai_touch. intros E. do 5 st E. injection E as <-. reflexivity. Qed.
Lemma chai_free_nulls (w w' : world V) h : Nulls w -> chai_free w h = Ok w' -> Nulls w'.
Proof.
  unfold chai_free. intros F E. do 3 st E. apply free_bufs in Heqo1. eapply set_buf_nulls; [| |exact E]; [unfold Nulls; rewrite Heqo1; exact F|auto].
Qed.

Lemma step_nulls o (w w' : world V) y : Nulls w -> chai_step n o w = Ok (w', y) -> Nulls w'.
Proof.
  intros F E. assert (P : forall c, nullish c -> Nulls (push_buf w c)).
  { intros c H. unfold Nulls, push_buf. cbn. apply Forall_app. auto. }
  destruct o; cbn [chai_step] in E; unfold plain in E; try st E; try (injection E as <- _).
  - unfold Nulls. cbn. apply Forall_app. split; [exact F|]. repeat constructor; discriminate.
  - unfold chai_copy in Heqo. st Heqo. eapply chai_move_nulls; [|exact Heqo]. apply P. eapply fall_get; eauto.
  - unfold chai_const in Heqo. st Heqo. injection Heqo as <-. apply P. intros H. exact (fall_get F Heqo0 H).
  - unfold chai_steal in Heqo. st Heqo. eapply set_buf_nulls; [| |exact Heqo]; auto. apply P. eapply fall_get; eauto.
  - unfold chai_assign in Heqo. st Heqo. eapply set_buf_nulls; [| |exact Heqo]; auto. eapply fall_get; eauto.
  - unfold chai_move_assign in Heqo. do 2 st Heqo. eapply set_buf_nulls; [| |exact Heqo]; auto. eapply set_buf_nulls; [| |exact Heqo1]; auto. eapply fall_get; eauto.
  - eapply chai_move_nulls; eauto.
  - apply touch_bufs in Heqo. unfold Nulls. rewrite Heqo. exact F.
  - unfold chai_reallocate in Heqo. do 3 st Heqo. st Heqo. destruct x3 as [w1 b]. apply allocate_bufs in Heqo3. cbn [w_bufs] in Heqo3. do 3 st Heqo.
    apply touch_bufs in Heqo. unfold Nulls. rewrite Heqo.
    assert (F3 : Nulls x3).
    { destruct (0 <? size); [|injection Heqo4 as <-; unfold Nulls; rewrite Heqo3; exact F]. do 6 st Heqo4. injection Heqo4 as <-. unfold Nulls. cbn. rewrite Heqo3. exact F. }
    eapply set_buf_nulls; [| |exact Heqo6]; [eapply chai_free_nulls; [|exact Heqo5]; exact F3|auto].
  - eapply chai_free_nulls; eauto.
  - unfold chai_write in Heqo. do 6 st Heqo. injection Heqo as <-. exact F.
  - exact F.
Qed.
Lemma run_nulls prog : forall (w w' : world V) ys, Nulls w -> chai_run n prog w = Ok (w', ys) -> Nulls w'.
Proof.
  induction prog as [|o prog IH]; intros w w' ys F E; cbn [chai_run] in E; [injection E as <- _; exact F|].
  st E. destruct x as [w1 y]. st E. destruct x as [w2 zs]. injection E as <- _. eapply IH; [|exact Heqo1]. eapply step_nulls; eauto.
Qed.
End Null.
