(** SortedArray refines a finite set. *)
From Coq Require Import List Arith ZArith Lia Bool Sorting.Sorted.
From Verif Require Import Base BaseProofs Mem MemProofs ArrayManipProofs BufferManip BufferManipProofs
  Sorted SortedSpec SortedProofs SortedProofs2 SortedProofs3 SortedArray SortedArraySpec.
Import ListNotations.
Set Implicit Arguments.
Unset Strict Implicit.

Section Proofs.
Variable V : Type.
Variable chk triv : bool.
Variable lt eqb : V -> V -> bool.
Variable dflt : V.
Hypothesis T : total_order lt eqb.
Notation incr l := (StronglySorted (fun x y => lt x y = true) l).
Notation kind := BMalloc.
Notation key := (fun v : V => v).
Notation LVs := (map (@LV V)).

Definition sa_ok (a : sarray V) (l : list V) : Prop := holds triv (s_buf a) l /\ s_size a = length l /\ incr l.

Lemma new_s_ok : sa_ok (new_s V kind) [].
Proof. split; [|split; [auto|constructor]]. exists 0. simpl. constructor. Qed.

Definition rx (p s : list (lcell V)) (l : list (option V)) (x : unit) : Prop := p = [] /\ exists k, s = repeat LN k.

Lemma keys_id (l : list V) : map (fun v => v) l = l. Proof. apply map_id. Qed.

Lemma inc_ok (b : buf V) (l : list V) (n : nat) : holds triv b l ->
  oks (cb_inc (s_cb V chk triv kind (length l)) n (b, tt)) (inc_post (P := V) triv key rx l n).
Proof.
  intros H. cbn [cb_inc s_cb fst]. eapply oks_bind; [apply dynamicReserve_ok; [exact H|left; auto]|].
  intros b' [H' L']. apply oks_ok. cbn. exists [], (repeat LN (length b' - length l - n)).
  pose proof (holds_cap H) as C. apply holds_mem in H'. split; auto. split; [|split; eauto].
  simpl. rewrite keys_id, <- repeat_app_add. eapply mem_cast; [exact H'|]. f_equal. f_equal.
  rewrite L'. destruct (Nat.ltb_spec (length b) (length l + n)); lia.
Qed.

Lemma ins_holds l b x : ins_post (P := V) triv key rx l b x -> holds triv b l.
Proof. intros (p & s & M & -> & k & ->). exists k. rewrite keys_id in M. exact M. Qed.

Definition outcome_of (c : scall V) (l l' : list V) (r : nat) : Prop :=
  (forall x, In x l' <-> set_after c (fun x => In x l) x) /\ counts c (length l) (length l') r.

Lemma sstep_ok c a l : sa_ok a l -> allowed lt c ->
  oks (sstep chk triv kind lt eqb dflt c a) (fun r => exists l', sa_ok (fst r) l' /\ outcome_of c l l' (snd r)).
Proof.
  intros (H & Hs & I) Al. pose proof (holds_mem H) as M0.
  assert (M : mem triv (s_buf a) ([] ++ LVs (map key l) ++ repeat LN (length (s_buf a) - length l))) by (rewrite keys_id; exact M0).
  destruct c as [v|vs|v|vs| |n]; cbn [sstep].
  - unfold s_insert. rewrite Hs.
    destruct (@insert_ok V V unit chk triv lt eqb key T (s_cb V chk triv kind (length l)) rx
        (s_buf a) tt [] _ l v 0 (length l) M I eq_refl eq_refl) as (k & E & K).
    { intros p' s' A B x' _ R. apply oks_ok. exact R. }
    rewrite E. clear E. rewrite !bind_assoc.
    eapply oks_bind; [apply inc_ok; exact H|]. intros r Hr. specialize (K r Hr).
    eapply oks_bind; [exact K|]. intros [[b' x'] ok] [Hi Ho]. cbn in *.
    apply oks_ok. cbn. exists (pinsert lt eqb key v l). split; [split; [|split]|split].
    + eapply ins_holds; eauto.
    + cbn. rewrite (pinsert_length T) by auto. subst ok. destruct (present eqb key l v); simpl; lia.
    + apply (pinsert_incr T); auto.
    + intros x. pose proof (pinsert_keys key T v l x) as PK. rewrite !keys_id in PK. exact PK.
    + cbn. rewrite (pinsert_length T) by auto. subst ok. destruct (present eqb (fun v => v) l v); simpl; lia.
  - unfold s_inserts. rewrite Hs. cbn in Al. apply (increasing_strong) in Al.
    destruct (@inserts_ok V V unit chk triv lt eqb key T (s_cb V chk triv kind (length l)) rx
        (s_buf a) tt [] _ l vs 0 (length l) M I Al eq_refl eq_refl) as (k & E & K).
    { intros; apply oks_ok. auto. }
    { intros; apply oks_ok. auto. }
    rewrite keys_id in E. rewrite E. clear E. rewrite !bind_assoc.
    eapply oks_bind; [apply inc_ok; exact H|]. intros r Hr. specialize (K r Hr).
    eapply oks_bind; [exact K|]. intros [[b' x'] ok] [Hi Ho]. cbn in *.
    apply oks_ok. cbn. exists (fold_right (pinsert lt eqb key) l vs). split; [split; [|split]|split].
    + eapply ins_holds; eauto.
    + cbn. rewrite (pinserts_length T) by auto. congruence.
    + apply (pinserts_incr T); auto.
    + intros x. pose proof (pinserts_keys key T vs l x) as PK. rewrite !keys_id in PK. exact PK.
    + cbn. rewrite (pinserts_length T) by auto. congruence.
  - unfold s_remove. rewrite Hs.
    eapply oks_bind; [eapply oks_bind|].
    + eapply (@remove_ok V V unit chk triv lt eqb key T (s_cb V chk triv kind (length l)) rx
        (s_buf a) tt [] _ l v 0 (length l) M I eq_refl eq_refl).
      * split; eauto.
      * intros A e B x' _ _ R. apply oks_ok. exact R.
    + intros [[b' x'] ok] (M' & _ & Ho & LL). cbn in M', Ho, LL. apply oks_ok.
      instantiate (1 := fun r => exists l', sa_ok (fst r) l' /\ outcome_of (SRemove v) l l' (flag (snd r))). cbn.
      exists (pdiff eqb key l [v]). split; [split; [|split]|split].
      * exists ((if present eqb key l v then 1 else 0) + (length (s_buf a) - length l)). rewrite repeat_app_add. rewrite keys_id in M'. exact M'.
      * cbn. subst ok.  lia.
      * apply (@pdiff_incr V V lt eqb key). exact I.
      * intros x. cbn. rewrite (pdiff_in key T). simpl. intuition.
      * cbn. subst ok. unfold flag. lia.
    + intros [a' r] Ha. apply oks_ok. exact Ha.
  - unfold s_removes. rewrite Hs. cbn in Al. apply (increasing_strong) in Al.
    eapply oks_bind.
    + eapply (@removes_ok V V unit chk triv lt eqb key T (s_cb V chk triv kind (length l)) rx
        (s_buf a) tt [] _ l vs 0 (length l) M I Al eq_refl eq_refl).
      * split; eauto.
      * intros. apply oks_ok. auto.
    + intros [[b' x'] nr] (M' & _ & LL). cbn in M', LL. rewrite sub_ix_ok by lia. cbn [bind]. apply oks_ok. cbn.
      exists (pdiff eqb key l vs). split; [split; [|split]|split].
      * exists (nr + (length (s_buf a) - length l)). rewrite repeat_app_add. rewrite keys_id in M'. exact M'.
      * cbn. lia.
      * apply (@pdiff_incr V V lt eqb key). exact I.
      * intros x. cbn. rewrite (pdiff_in key T). tauto.
      * cbn. lia.
  - unfold s_clear. rewrite Hs. rewrite !bind_assoc. eapply oks_bind; [apply resize_ok; [exact H|left; auto]|].
    intros b' [H' _]. apply oks_ok. cbn. exists []. repeat split; auto; try constructor; cbn; tauto.
  - unfold s_reserve. rewrite Hs. rewrite !bind_assoc. eapply oks_bind; [apply reserve_ok; [exact H|left; auto]|].
    intros b' [H' _]. apply oks_ok. cbn. exists l. repeat split; auto; cbn; tauto.
Qed.

Lemma set_of_snoc (h : list (scall V)) c x : set_of (h ++ [c]) x <-> set_after c (set_of h) x.
Proof. unfold set_of. rewrite fold_left_app. simpl. tauto. Qed.

Lemma set_after_ext (c : scall V) (S1 S2 : V -> Prop) : (forall x, S1 x <-> S2 x) -> forall x, set_after c S1 x <-> set_after c S2 x.
Proof. intros H x. destruct c; simpl; rewrite ?H; tauto. Qed.

Lemma set_run_ext (h : list (scall V)) : forall (S1 S2 : V -> Prop), (forall x, S1 x <-> S2 x) ->
  forall x, fold_left (fun S c => set_after c S) h S1 x <-> fold_left (fun S c => set_after c S) h S2 x.
Proof. induction h as [|c h IH]; intros S1 S2 H x; simpl; auto. apply IH. apply set_after_ext. auto. Qed.

Lemma incr_nodup (l : list V) : incr l -> NoDup l.
Proof.
  induction 1 as [|x l I IH F]; constructor; auto. intros Hx. rewrite Forall_forall in F. specialize (F x Hx). cbn in F.
  rewrite (irr (to_swo T)) in F. discriminate.
Qed.

Lemma cardinal_len (S : V -> Prop) n l : cardinal S n -> NoDup l -> (forall x, In x l <-> S x) -> length l = n.
Proof.
  intros (l' & N' & H' & <-) N H. apply Nat.le_antisymm; apply NoDup_incl_length; auto; intros x Hx.
  - apply H', H; auto.
  - apply H, H'; auto.
Qed.

(** Every prefix of a history. *)
Lemma srun_ok h : forall a l, sa_ok a l -> Forall (allowed lt) h ->
  oks (srun chk triv kind lt eqb dflt h a) (fun r => exists l', sa_ok (fst r) l' /\
    (forall x, In x l' <-> fold_left (fun S c => set_after c S) h (fun x => In x l) x) /\ length (snd r) = length h /\
    (forall h1 c h2, h = h1 ++ c :: h2 -> exists l1 l2 rv, incr l1 /\ incr l2 /\
       (forall x, In x l1 <-> fold_left (fun S c => set_after c S) h1 (fun x => In x l) x) /\
       (forall x, In x l2 <-> set_after c (fun x => In x l1) x) /\
       nth_error (snd r) (length h1) = Some rv /\ counts c (length l1) (length l2) rv)).
Proof.
  induction h as [|c h IH]; intros a l A F.
  - apply oks_ok. exists l. cbn. repeat split; auto; try apply A. intros [|? ?] ? ? E; discriminate.
  - cbn [srun]. pose proof (Forall_inv F) as Fc. apply Forall_inv_tail in F.
    eapply oks_bind; [apply sstep_ok; eauto|]. intros [a' r] (l' & A' & Hl' & Hc). cbn [fst snd] in *.
    eapply oks_bind; [apply IH; eauto|]. intros [a2 rs] (l2 & A2 & Hl2 & Ln & Hp). apply oks_ok. cbn [fst snd] in *.
    exists l2. split; auto. split; [|split; [simpl; auto|]].
    + intros x. rewrite Hl2. simpl. apply set_run_ext. auto.
    + intros [|c1 h1] c0 h2 E; simpl in E; injection E as -> E.
      * exists l, l', r. repeat split; auto; try apply A; try apply A'; try apply Hl'.
      * destruct (Hp _ _ _ E) as (k1 & k2 & rv & I1 & I2 & H1 & H2 & Hn & Hcc). exists k1, k2, rv.
        split; [exact I1|]. split; [exact I2|]. split; [|split; [exact H2|split; [exact Hn|exact Hcc]]].
        intros x. rewrite H1. simpl. apply set_run_ext. exact Hl'.
Qed.

End Proofs.
