(** Programs which keep to disjoint parts of the memory do not see each other. *)
From Coq Require Import List Arith Lia Bool.
From Verif Require Import Base BaseProofs Mem AoA Conc Prog.
Import ListNotations.
Set Implicit Arguments.

Lemma upd_upd A (l : list A) i x y : upd (upd l i x) i y = upd l i y.
Proof. revert i. induction l; intros [|i]; cbn; congruence. Qed.
Lemma upd_at A (l1 : list A) x l2 y : upd (l1 ++ x :: l2) (length l1) y = l1 ++ y :: l2.
Proof. induction l1; cbn; congruence. Qed.
Lemma nth_error_ext_eq A (l l' : list A) : length l = length l' -> (forall i, i < length l -> nth_error l i = nth_error l' i) -> l = l'.
Proof.
  revert l'. induction l as [|x l IH]; intros [|y l'] E H; cbn in *; try discriminate; auto.
  pose proof (H 0 ltac:(lia)) as H0. cbn in H0. injection H0 as <-. f_equal. apply IH; [lia|]. intros i Li. apply (H (S i)). lia.
Qed.

Section Logic.
Variables V W : Type.
Notation ty := (ty V W).
Notation heap := (heap V W).
Notation prog := (prog V W).

Lemma hset_same (h : heap) b i c : hset h b i c b i = Some c.
Proof. destruct b; cbn; unfold put_fn; rewrite Nat.eqb_refl; reflexivity. Qed.
Lemma hset_other (h : heap) b i c b' j : (b', j) <> (b, i) -> hset h b i c b' j = h b' j.
Proof.
  intros N. destruct b, b'; cbn; try reflexivity; unfold put_fn; destruct (Nat.eqb_spec j i); try reflexivity; subst; contradiction.
Qed.
Definition bid_dec (a b : bid) : {a = b} + {a <> b}.
Proof. decide equality. Defined.
Definition loc_dec (x y : bid * nat) : {x = y} + {x <> y}.
Proof. decide equality; [apply Nat.eq_dec|apply bid_dec]. Defined.

(** ** Footprints *)
Definition area : Type := bid -> nat -> Prop.
Section WP.
(** The cells which may be read and those which may be written *)
Variables R O : area.
Fixpoint wp {A} (p : prog A) (h : heap) (Q : A -> heap -> Prop) : Prop :=
  match p with
  | Ret a => Q a h
  | Stop _ => False
  | Get b i k => R b i /\ match h b i with Some c => wp (k c) h Q | None => False end
  | Put b i c k => O b i /\ h b i <> None /\ wp k (hset h b i c) Q
  end.
Lemma wp_mono A (p : prog A) : forall h (P Q : A -> heap -> Prop), wp p h P -> (forall a h', P a h' -> Q a h') -> wp p h Q.
Proof.
  induction p as [a|f|b i k IH|b i c k IH]; intros h P Q H HPQ; cbn in *; auto.
  - destruct H as [Hr H]. split; auto. destruct (h b i); auto. eapply IH; eauto.
  - destruct H as (Hw & Hd & H). repeat split; auto. eapply IH; eauto.
Qed.
Lemma wp_bind A B (m : prog A) (f : A -> prog B) : forall h Q, wp m h (fun a h' => wp (f a) h' Q) -> wp (pbind m f) h Q.
Proof.
  induction m as [a|e|b i k IH|b i c k IH]; intros h Q H; cbn in *; auto.
  - destruct H as [Hr H]. split; auto. destruct (h b i); auto.
  - destruct H as (Hw & Hd & H). repeat split; auto.
Qed.
Lemma wp_lift A (m : outcome A) a h (Q : A -> heap -> Prop) : m = Ok a -> Q a h -> wp (lift V W m) h Q.
Proof. intros -> H. exact H. Qed.
(** What is not in [O] stays. *)
Lemma wp_run A (p : prog A) : forall h Q, wp p h Q ->
  exists a h', run p h = Ok (a, h') /\ Q a h' /\ (forall b i, ~ O b i -> h' b i = h b i).
Proof.
  induction p as [a|f|b i k IH|b i c k IH]; intros h Q H; cbn in *.
  - exists a, h. auto.
  - contradiction.
  - destruct H as [_ H]. destruct (h b i); [|contradiction]. apply IH. exact H.
  - destruct H as (Hw & Hd & H). destruct (h b i) eqn:E; [|congruence].
    destruct (IH _ _ H) as (a & h' & E' & HQ & F). exists a, h'. split; auto. split; auto.
    intros b' i' N. rewrite F by exact N. apply hset_other. intros X. injection X as -> ->. contradiction.
Qed.
Lemma wp_frame A (p : prog A) : forall h Q, wp p h Q -> wp p h (fun a h' => Q a h' /\ forall b i, ~ O b i -> h' b i = h b i).
Proof.
  induction p as [a|f|b i k IH|b i c k IH]; intros h Q H; cbn in *.
  - auto.
  - contradiction.
  - destruct H as [Hr H]. split; auto. destruct (h b i); [|contradiction]. apply IH. exact H.
  - destruct H as (Hw & Hd & H). split; auto. split; auto. apply IH in H. eapply wp_mono; [exact H|]. cbn.
    intros a h' [HQ F]. split; auto. intros b' i' N. rewrite F by exact N. apply hset_other. intros X. injection X as -> ->. contradiction.
Qed.
End WP.
Lemma wp_area (R O R' O' : area) A (p : prog A) : (forall b i, R b i -> R' b i) -> (forall b i, O b i -> O' b i) ->
  forall h Q, wp R O p h Q -> wp R' O' p h Q.
Proof.
  intros HR HO. induction p as [a|f|b i k IH|b i c k IH]; intros h Q H; cbn in *; auto.
  - destruct H as [Hr H]. split; auto. destruct (h b i); auto.
  - destruct H as (Hw & Hd & H). repeat split; auto.
Qed.
Lemma wp_exact R O A (p : prog A) : forall h Q, wp R O p h Q -> exists r, wp R O p h (fun a h' => (a, h') = r) /\ Q (fst r) (snd r).
Proof.
  induction p as [a|f|b i k IH|b i c k IH]; intros h Q H; cbn in *.
  - exists (a, h). auto.
  - contradiction.
  - destruct H as [Hr H]. destruct (h b i); [|contradiction]. destruct (IH _ _ _ H) as (r & H1 & H2). exists r. auto.
  - destruct H as (Ho & Hd & H). destruct (IH _ _ H) as (r & H1 & H2). exists r. auto.
Qed.
(** Domain of the memory *)
Lemma run_dom A (p : prog A) : forall h a h', run p h = Ok (a, h') -> forall b i, h' b i = None <-> h b i = None.
Proof.
  induction p as [a|f|b i k IH|b i c k IH]; intros h x h' E b' i'; cbn in *.
  - injection E as <- <-. tauto.
  - destruct f; discriminate.
  - destruct (h b i); [|discriminate]. eapply IH; eauto.
  - destruct (h b i) eqn:D; [|discriminate]. rewrite (IH _ _ _ E b' i').
    destruct (loc_dec (b', i') (b, i)) as [X|X].
    + injection X as -> ->. rewrite hset_same, D. split; discriminate.
    + rewrite hset_other by exact X. tauto.
Qed.
Lemma run_bind A B (m : prog A) (f : A -> prog B) : forall h, run (pbind m f) h = bind (run m h) (fun r => run (f (fst r)) (snd r)).
Proof.
  induction m as [a|e|b i k IH|b i c k IH]; intros h; cbn.
  - reflexivity.
  - destruct e; reflexivity.
  - destruct (h b i); auto.
  - destruct (h b i); auto.
Qed.

(** ** Interleavings *)
(** The number of accesses of a program run alone *)
Fixpoint plen A (p : prog A) (h : heap) : nat :=
  match p with
  | Ret _ => 0
  | Stop _ => 0
  | Get b i k => S (match h b i with Some c => plen (k c) h | None => 0 end)
  | Put b i c k => S (plen k (hset h b i c))
  end.
Lemma plen_agree R O A (p : prog A) : forall h Q, wp R O p h Q -> forall h2, (forall b i, R b i \/ O b i -> h2 b i = h b i) -> plen p h2 = plen p h.
Proof.
  induction p as [a|f|b i k IH|b i c k IH]; intros h Q H h2 E; cbn in *; auto.
  - destruct H as [Hr H]. rewrite (E b i (or_introl Hr)). destruct (h b i) as [c|]; [|contradiction]. f_equal. eapply IH; eauto.
  - destruct H as (Ho & _ & H). f_equal. eapply IH; [exact H|]. intros b' i' Hb. destruct (bid_dec b b') as [->|Nb].
    + destruct (Nat.eq_dec i i') as [->|Ni]; [rewrite !hset_same; reflexivity|rewrite !hset_other by congruence; auto].
    + rewrite !hset_other by congruence. auto.
Qed.

Section Par.
Variable A : Type.
(** What thread [t] reads and owns *)
Variables R O : nat -> area.
Hypothesis apart : forall t u b i, t <> u -> O t b i -> ~ R u b i /\ ~ O u b i.

Variable h0 : heap.
Variable ps : list (prog A).
Variable res : list (A * heap).
Definition solo (t : nat) (p : prog A) (r : A * heap) : Prop := wp (R t) (O t) p h0 (fun a h' => (a, h') = r).

(** [h] is the state, [th] what is left of thread [t] *)
Definition coherent (h : heap) (t : nat) (th : prog A) : Prop :=
  exists s r, nth_error res t = Some r /\ wp (R t) (O t) th s (fun a h' => (a, h') = r) /\
    (forall b i, R t b i \/ O t b i -> h b i = s b i) /\ (forall b i, ~ O t b i -> s b i = h0 b i).
Definition inv (h : heap) (ths : list (prog A)) : Prop :=
  length ths = length ps /\ (forall t th, nth_error ths t = Some th -> coherent h t th) /\
  (forall b i, (forall t, t < length ps -> ~ O t b i) -> h b i = h0 b i) /\
  (forall b i, h b i = None <-> h0 b i = None).

Lemma inv_start : (forall t p, nth_error ps t = Some p -> exists r, nth_error res t = Some r /\ solo t p r) -> inv h0 ps.
Proof.
  intros H. split; auto. split.
  - intros t th N. destruct (H t th N) as (r & Nr & S). exists h0, r. auto.
  - split; [auto|tauto].
Qed.
Lemma inv_step h ths t th : inv h ths -> nth_error ths t = Some th ->
  exists h' th', access h th = Ok (h', th') /\ inv h' (upd ths t th').
Proof.
  intros (El & C & U & D) N. pose proof (C t th N) as (s & r & Nr & Hw & Ag & Fr).
  assert (Lt : t < length ths) by (apply nth_error_Some; congruence).
  assert (Keep : forall th', coherent h t th' -> inv h (upd ths t th')).
  { intros th' C'. split; [rewrite upd_length; exact El|]. split; [|auto]. intros u v Nu. destruct (Nat.eq_dec u t) as [->|Ne].
    - rewrite nth_error_upd_eq in Nu by exact Lt. injection Nu as <-. exact C'.
    - rewrite nth_error_upd_ne in Nu by auto. exact (C u v Nu). }
  destruct th as [a|f|b i k|b i c k]; cbn in Hw.
  - exists h, (Ret a). split; [reflexivity|]. apply Keep. exists s, r. auto.
  - contradiction.
  - destruct Hw as [Hr Hw]. cbn. rewrite (Ag b i (or_introl Hr)). destruct (s b i) as [c|] eqn:E; [|contradiction].
    exists h, (k c). split; [reflexivity|]. apply Keep. exists s, r. auto.
  - destruct Hw as (Ho & Hd & Hw). cbn. pose proof (Ag b i (or_intror Ho)) as Eh. destruct (h b i) as [c0|] eqn:E; [|congruence].
    exists (hset h b i c), k. split; [reflexivity|]. split; [rewrite upd_length; exact El|]. split; [|split].
    + intros u v Nu. destruct (Nat.eq_dec u t) as [->|Ne].
      * rewrite nth_error_upd_eq in Nu by exact Lt. injection Nu as <-. exists (hset s b i c), r. split; auto. split; auto. split.
        -- intros b' i' Hin. destruct (loc_dec (b', i') (b, i)) as [X|X].
           ++ injection X as -> ->. rewrite !hset_same. reflexivity.
           ++ rewrite !hset_other by exact X. apply Ag. exact Hin.
        -- intros b' i' No. rewrite hset_other; [apply Fr; exact No|]. intros X. injection X as -> ->. contradiction.
      * rewrite nth_error_upd_ne in Nu by auto. destruct (C u v Nu) as (s' & r' & Nr' & Hw' & Ag' & Fr').
        exists s', r'. split; auto. split; auto. split; auto. intros b' i' Hin. rewrite hset_other; [apply Ag'; exact Hin|].
        intros X. injection X as -> ->. destruct (@apart t u b i (not_eq_sym Ne) Ho). tauto.
    + intros b' i' No. rewrite hset_other; [apply U; exact No|]. intros X. injection X as -> ->. apply (No t); [lia|exact Ho].
    + intros b' i'. destruct (loc_dec (b', i') (b, i)) as [X|X].
      * injection X as -> ->. rewrite hset_same, <- D, E. split; discriminate.
      * rewrite hset_other by exact X. apply D.
Qed.
Lemma inv_run h ths t th : inv h ths -> nth_error ths t = Some th ->
  exists h' a, run th h = Ok (a, h') /\ inv h' (upd ths t (Ret a)).
Proof.
  revert h ths. induction th as [a|f|b i k IH|b i c k IH]; intros h ths I N.
  - exists h, a. split; [reflexivity|]. destruct (@inv_step h ths t (Ret a) I N) as (h' & th' & E & I'). cbn in E. injection E as <- <-. exact I'.
  - destruct (@inv_step h ths t (Stop f) I N) as (h' & th' & E & I'). cbn in E. destruct f; discriminate.
  - destruct (@inv_step h ths t (Get b i k) I N) as (h' & th' & E & I'). cbn in E |- *. destruct (h b i); [|discriminate]. injection E as <- <-.
    assert (Lt : t < length ths) by (apply nth_error_Some; congruence).
    destruct (@IH c h (upd ths t (k c)) I') as (h2 & a & E2 & I2); [apply nth_error_upd_eq; exact Lt|].
    rewrite upd_upd in I2. eauto.
  - destruct (@inv_step h ths t (Put b i c k) I N) as (h' & th' & E & I'). cbn in E |- *. destruct (h b i); [|discriminate]. injection E as <- <-.
    assert (Lt : t < length ths) by (apply nth_error_Some; congruence).
    destruct (@IH (hset h b i c) (upd ths t k) I') as (h2 & a & E2 & I2); [apply nth_error_upd_eq; exact Lt|].
    rewrite upd_upd in I2. eauto.
Qed.
(** Running the threads one after another, from the first one which is not finished. *)
Fixpoint seq_run (rest : list (prog A)) (h : heap) : outcome (list A * heap) :=
  match rest with [] => Ok ([], h) | p :: rest' => '(a, h1) <- run p h ;; '(l, h2) <- seq_run rest' h1 ;; Ok (a :: l, h2) end.
Lemma inv_seq rest : forall h pre, inv h (map Ret pre ++ rest) ->
  exists l h', seq_run rest h = Ok (l, h') /\ inv h' (map Ret (pre ++ l)).
Proof.
  induction rest as [|p rest IH]; intros h pre I; cbn.
  - exists [], h. rewrite !app_nil_r in *. auto.
  - destruct (@inv_run h _ (length pre) p I) as (h1 & a & E & I1).
    { rewrite nth_error_app2, map_length, Nat.sub_diag by (rewrite map_length; lia). reflexivity. }
    rewrite E. cbn. replace (length pre) with (length (map (@Ret V W A) pre)) in I1 by apply map_length.
    rewrite upd_at in I1. destruct (IH h1 (pre ++ [a])) as (l & h2 & E2 & I2).
    { rewrite map_app, <- app_assoc. exact I1. }
    rewrite E2. cbn. exists (a :: l), h2. split; auto. rewrite <- app_assoc in I2. exact I2.
Qed.
Lemma inv_exec sched : forall h ths, inv h ths -> exists h' ths', exec (@access V W A) sched h ths = Ok (h', ths') /\ inv h' ths'.
Proof.
  induction sched as [|t sched IH]; intros h ths I; cbn.
  - exists h, ths. auto.
  - destruct (nth_error ths t) as [th|] eqn:N; [|apply IH; exact I].
    destruct (@inv_step h ths t th I N) as (h' & th' & E & I'). rewrite E. cbn. apply IH. exact I'.
Qed.
(** A thread which got as many steps as it makes alone is done. *)
Lemma inv_finishes sched : forall h ths h' ths', inv h ths -> exec (@access V W A) sched h ths = Ok (h', ths') ->
  forall t th, nth_error ths t = Some th -> plen th h <= count_occ Nat.eq_dec sched t -> exists a, nth_error ths' t = Some (Ret a).
Proof.
  induction sched as [|u sched IH]; intros h ths h' ths' I E t th N Le; cbn in E, Le.
  - injection E as <- <-. assert (P0 : plen th h = 0) by lia. destruct I as (_ & C & _). destruct (C t th N) as (s & r & _ & Hw & _).
    destruct th; cbn in P0, Hw; try discriminate; [eauto|contradiction].
  - destruct (nth_error ths u) as [thu|] eqn:Nu.
    2:{ destruct (Nat.eq_dec u t) as [->|]; [congruence|]. eapply IH; eauto. }
    destruct (@inv_step h ths u thu I Nu) as (h1 & th1 & E1 & I1). rewrite E1 in E. cbn in E.
    assert (Lu : u < length ths) by (apply nth_error_Some; congruence).
    destruct (Nat.eq_dec u t) as [->|Ne].
    + rewrite N in Nu. injection Nu as <-. eapply (IH h1 _ h' ths' I1 E t th1); [apply nth_error_upd_eq; exact Lu|].
      destruct th as [a|f|b i k|b i c k]; cbn in E1, Le.
      * injection E1 as <- <-. cbn. lia.
      * destruct f; discriminate.
      * destruct (h b i) as [c|]; [|discriminate]. injection E1 as <- <-. lia.
      * destruct (h b i); [|discriminate]. injection E1 as <- <-. lia.
    + eapply (IH h1 _ h' ths' I1 E t th); [rewrite nth_error_upd_ne by auto; exact N|].
      assert (El : plen th h1 = plen th h); [|lia].
      destruct I as (_ & C & _). destruct (C t th N) as (s & r & _ & Hw & Ag & _).
      rewrite (@plen_agree _ _ A th s _ Hw h Ag). apply (@plen_agree _ _ A th s _ Hw). intros b i Hb. rewrite <- (Ag b i Hb).
      destruct thu as [a|f|b' i' k|b' i' c k]; cbn in E1.
      * injection E1 as <- <-. reflexivity.
      * destruct f; discriminate.
      * destruct (h b' i'); [|discriminate]. injection E1 as <- <-. reflexivity.
      * destruct (h b' i') eqn:D; [|discriminate]. injection E1 as <- <-. destruct (C u _ Nu) as (su & ru & _ & Hwu & _ & _).
        cbn in Hwu. destruct Hwu as (Ho & _). destruct (apart Ne Ho) as [Na Nb]. 
        apply hset_other. intros Eq. injection Eq as -> ->. destruct Hb; contradiction.
Qed.
Definition done (ths : list (prog A)) : Prop := forall t th, nth_error ths t = Some th -> exists a, th = Ret a.
(** All threads done: thread [t] returned what it returns alone, its cells are as it leaves them, all others as before. *)
Lemma inv_done h ths : inv h ths -> done ths ->
  (forall t r, nth_error res t = Some r -> t < length ps -> nth_error ths t = Some (Ret (fst r)) /\ forall b i, O t b i \/ R t b i -> h b i = snd r b i) /\
  (forall b i, (forall t, t < length ps -> ~ O t b i) -> h b i = h0 b i).
Proof.
  intros (El & C & U & D) Dn. split; [|exact U]. intros t r Nr Lt. destruct (nth_error ths t) as [th|] eqn:N.
  - destruct (C t th N) as (s & r' & Nr' & Hw & Ag & Fr). destruct (Dn t th N) as [a ->]. cbn in Hw.
    rewrite Nr in Nr'. injection Nr' as <-. rewrite <- Hw. split; auto. intros b i [Hi|Hi]; apply Ag; auto.
  - apply nth_error_None in N. lia.
Qed.
Lemma inv_no_race h ths : inv h ths -> no_race ths.
Proof.
  intros (_ & C & _) t u p q b i w Ne Nt Nu Ep Eq. destruct (C t p Nt) as (s & r & _ & Hw & _). destruct (C u q Nu) as (s' & r' & _ & Hw' & _).
  destruct p as [| | |b1 i1 c1 k1]; try discriminate. injection Ep as -> ->. cbn in Hw. destruct Hw as [Ho _].
  destruct (apart Ne Ho) as [Na Nb]. destruct q as [| |b2 i2 k2|b2 i2 c2 k2]; try discriminate; injection Eq as -> -> _; cbn in Hw'; tauto.
Qed.
Hypothesis Odec : forall b i, (exists t, t < length ps /\ O t b i) \/ (forall t, t < length ps -> ~ O t b i).
Hypothesis res_len : length res = length ps.
Lemma inv_agree h1 ths1 h2 ths2 : inv h1 ths1 -> done ths1 -> inv h2 ths2 -> done ths2 -> forall b i, h1 b i = h2 b i.
Proof.
  intros I1 D1 I2 D2 b i. destruct (inv_done I1 D1) as [R1 U1]. destruct (inv_done I2 D2) as [R2 U2].
  destruct (Odec b i) as [(t & Lt & Ho)|N].
  - destruct (nth_error res t) as [r|] eqn:Nr; [|apply nth_error_None in Nr; lia].
    destruct (R1 t r Nr Lt) as [_ H1]. destruct (R2 t r Nr Lt) as [_ H2]. rewrite H1, H2; auto.
  - rewrite U1, U2; auto.
Qed.
Lemma inv_results h ths : inv h ths -> done ths -> ths = map (fun r => Ret (fst r)) res.
Proof.
  intros I D. destruct (inv_done I D) as [Rs _]. destruct I as (El & _). apply nth_error_ext_eq; [rewrite map_length; lia|].
  intros t Lt. destruct (nth_error res t) as [r|] eqn:Nr; [|apply nth_error_None in Nr; lia].
  destruct (Rs t r Nr) as [-> _]; [lia|]. rewrite (map_nth_error _ _ _ Nr). reflexivity.
Qed.
End Par.
End Logic.
