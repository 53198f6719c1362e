(** Effect of the bufferManipulation functions on a buffer holding exactly the sequence [vs]. *)
From Coq Require Import List Arith ZArith Lia Bool.
From Verif Require Import Base BaseProofs Mem MemProofs ArrayManipProofs BufferManip.
From Verif Require ArrayManip.
Import ListNotations.
Set Implicit Arguments.

(** The buffer holds exactly the objects [vs] in its first slots, nothing elsewhere. *)
Definition holds {V} (triv : bool) (b : buf V) (vs : list V) : Prop :=
  exists k, mem triv b (map LV vs ++ repeat LN k).

Section BMP.
Variable V : Type.
Variable chk triv : bool.
Variable kind : bkind.
Notation mem := (@mem V triv).
Notation LVs := (map (@LV V)).
Notation holds := (@holds V triv).
Implicit Types b : buf V.

Lemma holds_mem b vs : holds b vs -> mem b (LVs vs ++ repeat LN (length b - length vs)).
Proof.
  intros [k M]. pose proof (mem_length M) as E. len.
  replace (length b - length vs) with k by len. exact M.
Qed.

Lemma holds_cap b vs : holds b vs -> length vs <= length b.
Proof. intros [k M]. apply mem_length in M. len. Qed.

Lemma holds_rd b vs i v : holds b vs -> nth_error vs i = Some v -> rd b i = Ok v.
Proof.
  intros [k M] E. eapply rd_nth; [exact M|].
  rewrite nth_error_app1; [apply map_nth_error; auto|].
  len. apply nth_error_Some; congruence.
Qed.

Lemma check_ok b size : size <= length b -> check chk b size = Ok tt.
Proof. intros. apply check_if_ok, Nat.ltb_ge. auto. Qed.

Lemma release_ok b n : mem b (repeat LN n) -> release triv b = Ok tt.
Proof.
  intros M. unfold release. destruct triv eqn:T; [auto|].
  replace (forallb (@is_raw V) b) with true; auto.
  revert n M. induction b as [|c b IH]; intros n M; auto.
  destruct n as [|n]; inversion M as [|? ? ? ? Hc Hr]; subst.
  simpl in Hc. simpl. destruct Hc as [Hc | Hc]; [discriminate|subst c]. simpl. eapply IH; eauto.
Qed.

(** A buffer all of whose first [size] slots are logically live is moved into the new one. *)
Lemma reallocate_ok b vs n :
  kind = BMalloc -> holds b vs -> length vs <= n ->
  oks (reallocate triv kind b (length vs) n) (fun b' => holds b' vs /\ length b' = n).
Proof.
  intros -> H Hn. unfold reallocate. rewrite Nat.min_r by lia.
  apply holds_mem in H.
  eapply oks_bind.
  - eapply uninitializedMove_ok with (pd := []) (md := repeat LN (length vs)) (sd := repeat LN (n - length vs))
      (ps := []) (vs := vs) (ss := repeat LN (length b - length vs)); auto; len.
    eapply mem_cast; [apply mem_repeat_raw with (n := n)|]. simpl. rewrite <- repeat_app_add. f_equal; lia.
  - intros [nb b1] [Mn Mb]. simpl in Mn, Mb.
    eapply oks_bind.
    + eapply destroy_ok with (p := []) (m := repeat LM (length vs)); auto; [exact Mb|len].
    + intros b2 M2. simpl in M2. rewrite <- repeat_app_add in M2.
      rewrite (release_ok _ M2). simpl. apply oks_ok.
      split; [eexists; exact Mn|]. apply mem_length in Mn. len.
Qed.

(** Any new capacity: what fits is kept, the rest is destroyed. *)
Lemma reallocate_any b vs n :
  kind = BMalloc -> holds b vs ->
  oks (reallocate triv kind b (length vs) n) (fun b' => holds b' (firstn n vs) /\ length b' = n).
Proof.
  intros -> H. unfold reallocate. apply holds_mem in H.
  set (ws := firstn n vs). set (rs := skipn n vs).
  assert (E : vs = ws ++ rs) by (symmetry; apply firstn_skipn).
  assert (Ln : length ws = Nat.min n (length vs)) by (unfold ws; apply firstn_length).
  eapply oks_bind.
  - eapply uninitializedMove_ok with (pd := []) (md := repeat LN (length ws)) (sd := repeat LN (n - length ws))
      (ps := []) (vs := ws) (ss := LVs rs ++ repeat LN (length b - length vs)); auto; len.
    + eapply mem_cast; [apply mem_repeat_raw with (n := n)|]. simpl. rewrite <- repeat_app_add. f_equal; lia.
    + eapply mem_cast; [exact H|]. simpl. rewrite E at 1. rewrite map_app, app_assoc. reflexivity.
  - intros [nb b1] [Mn Mb]. simpl in Mn, Mb.
    eapply oks_bind.
    + eapply destroy_ok with (p := []) (m := repeat LM (length ws) ++ LVs rs) (s := repeat LN (length b - length vs)).
      * eapply mem_cast; [exact Mb|]. rewrite <- app_assoc, Ln. reflexivity.
      * reflexivity.
      * rewrite app_length, repeat_length, map_length, <- app_length, <- E. reflexivity.
      * apply Forall_app; split; auto.
    + intros b2 M2. simpl in M2. rewrite <- repeat_app_add in M2.
      rewrite (release_ok _ M2). simpl. apply oks_ok.
      split; [eexists; exact Mn|]. apply mem_length in Mn. len.
Qed.

Lemma setCapacity_ok b vs n :
  kind = BMalloc -> holds b vs ->
  oks (setCapacity chk triv kind b (length vs) n) (fun b' => holds b' (firstn n vs) /\ length b' = n).
Proof.
  intros K H. unfold setCapacity. rewrite check_ok by (exact (holds_cap H)). apply reallocate_any; auto.
Qed.

(** What reserve/dynamicReserve need: either there is room already or the buffer can grow. *)
Definition can_grow (b : buf V) (n : nat) : Prop := kind = BMalloc \/ n <= length b.

Lemma reserve_ok b vs n :
  holds b vs -> can_grow b n ->
  oks (reserve chk triv kind b (length vs) n)
      (fun b' => holds b' vs /\ length b' = Nat.max (length b) n).
Proof.
  intros H G. pose proof (holds_cap H) as Hc. unfold reserve, capacity.
  rewrite check_ok by auto. simpl bind.
  destruct (Nat.ltb_spec (length b) n).
  - destruct G as [G|G]; [|lia]. unfold setCapacity. rewrite check_ok by auto. simpl bind.
    eapply oks_mono; [apply reallocate_ok; auto; lia|].
    intros b' [A B]. split; auto. lia.
  - apply oks_ok. split; auto. lia.
Qed.

Lemma dynamicReserve_ok b vs n :
  holds b vs -> can_grow b n ->
  oks (dynamicReserve chk triv kind b (length vs) n)
      (fun b' => holds b' vs /\ length b' = (if length b <? n then 2 * n else length b)).
Proof.
  intros H G. pose proof (holds_cap H) as Hc. unfold dynamicReserve, capacity.
  rewrite check_ok by auto. simpl bind.
  destruct (Nat.ltb_spec (length b) n).
  - destruct G as [G|G]; [|lia]. unfold setCapacity. rewrite check_ok by auto. simpl bind.
    apply reallocate_ok; auto; lia.
  - apply oks_ok. split; auto.
Qed.

(** Growing or shrinking to [newSize]. *)
Definition list_resize (vs : list V) (n : nat) (v : V) : list V :=
  firstn n vs ++ repeat v (n - length vs).

Lemma list_resize_length vs n v : length (list_resize vs n v) = n.
Proof. unfold list_resize. len. Qed.

Lemma resize_ok b vs n v :
  holds b vs -> can_grow b n ->
  oks (resize chk triv kind b (length vs) n v)
      (fun b' => holds b' (list_resize vs n v) /\ length b' = Nat.max (length b) n).
Proof.
  intros H G. pose proof (holds_cap H) as Hc. unfold resize.
  rewrite check_ok by auto. simpl bind.
  eapply oks_bind; [apply reserve_ok; auto|].
  intros b1 [H1 L1]. apply holds_mem in H1.
  destruct (le_lt_dec (length vs) n).
  - eapply oks_mono.
    + eapply resize_grow_ok with (p := []) (n := n - length vs) (s := repeat LN (length b1 - n)) (vs := vs); auto; try lia.
      eapply mem_cast; [exact H1|]. simpl. f_equal. rewrite <- repeat_app_add. f_equal. lia.
    + intros b' M. simpl in M. split.
      * unfold list_resize. rewrite firstn_all2 by lia. eexists; exact M.
      * apply mem_length in M. len.
  - destruct (split_at vs (n:=n)) as (v1 & v2 & -> & E); [lia|].
    eapply oks_mono.
    + eapply resize_shrink_ok with (p := []) (vs := v1) (ws := v2); eauto.
    + intros b' M. simpl in M. rewrite app_assoc in M. rewrite <- app_assoc, <- repeat_app_add in M. split.
      * unfold list_resize. rewrite firstn_app_exact by auto.
        replace (n - length (v1 ++ v2)) with 0 by len. simpl. rewrite app_nil_r.
        eexists. exact M.
      * apply mem_length in M. len.
Qed.

Lemma emplaceBack_ok b vs v :
  holds b vs -> can_grow b (length vs + 1) ->
  oks (emplaceBack chk triv kind b (length vs) v)
      (fun b' => holds b' (vs ++ [v]) /\
                 length b' = (if length b <? length vs + 1 then 2 * (length vs + 1) else length b)).
Proof.
  intros H G. pose proof (holds_cap H) as Hc. unfold emplaceBack.
  rewrite check_ok by auto. simpl bind.
  eapply oks_bind; [apply dynamicReserve_ok; auto|].
  intros b1 [H1 L1]. apply holds_mem in H1.
  assert (length vs < length b1).
  { rewrite L1. destruct (Nat.ltb_spec (length b) (length vs + 1)); lia. }
  destruct (length b1 - length vs) as [|r] eqn:Er; [lia|]. simpl in H1.
  eapply oks_mono.
  - eapply ArrayManipProofs.emplaceBack_ok with (p := []) (vs := vs) (c := LN); simpl; auto. exact H1.
  - intros b' M. simpl in M. split; [eexists; exact M|]. rewrite <- L1. apply mem_length in M. len.
Qed.

Lemma checkInsert_ok b size pos : size <= length b -> (0 <= pos <= Z.of_nat size)%Z ->
  checkInsert chk b size pos = Ok tt.
Proof.
  intros. unfold checkInsert. rewrite check_ok by auto. simpl bind.
  rewrite check_if_ok by (apply Z.ltb_ge; lia). simpl bind.
  apply check_if_ok, Z.ltb_ge; lia.
Qed.

Lemma emplace_ok b xs ys v :
  holds b (xs ++ ys) -> can_grow b (length (xs ++ ys) + 1) ->
  oks (emplace chk triv kind b (length (xs ++ ys)) (Z.of_nat (length xs)) v)
      (fun b' => holds b' (xs ++ v :: ys) /\
        length b' = (if length b <? length (xs ++ ys) + 1 then 2 * (length (xs ++ ys) + 1) else length b)).
Proof.
  intros H G. pose proof (holds_cap H) as Hc. unfold emplace.
  rewrite checkInsert_ok by len. simpl bind.
  eapply oks_bind; [apply dynamicReserve_ok; auto|].
  intros b1 [H1 L1]. apply holds_mem in H1. rewrite to_ix_nat. simpl bind.
  assert (length (xs ++ ys) < length b1).
  { rewrite L1. destruct (Nat.ltb_spec (length b) (length (xs ++ ys) + 1)); len. }
  destruct (length b1 - length (xs ++ ys)) as [|r] eqn:Er; [lia|]. simpl in H1.
  eapply oks_mono.
  - eapply ArrayManipProofs.emplace_ok with (p := []) (xs := xs) (ys := ys) (s := repeat LN r); auto; len.
    eapply mem_cast; [exact H1|]. rewrite map_app. lapp; auto.
  - intros b' M. simpl in M. split; [eexists; exact M|]. rewrite <- L1. apply mem_length in M. len.
Qed.

Lemma insert_ok b xs ys ws :
  holds b (xs ++ ys) -> can_grow b (length (xs ++ ys) + length ws) ->
  oks (insert chk triv kind b (length (xs ++ ys)) (Z.of_nat (length xs)) ws)
      (fun r => holds (fst r) (xs ++ ws ++ ys) /\ snd r = length ws /\
        length (fst r) = (if length b <? length (xs ++ ys) + length ws
                          then 2 * (length (xs ++ ys) + length ws) else length b)).
Proof.
  intros H G. pose proof (holds_cap H) as Hc. unfold insert.
  rewrite checkInsert_ok by len. simpl bind.
  eapply oks_bind; [apply dynamicReserve_ok; auto|].
  intros b1 [H1 L1]. apply holds_mem in H1. rewrite to_ix_nat. simpl bind.
  assert (length (xs ++ ys) + length ws <= length b1).
  { rewrite L1. destruct (Nat.ltb_spec (length b) (length (xs ++ ys) + length ws)); len. }
  eapply oks_bind.
  - eapply ArrayManipProofs.insert_ok with (p := []) (xs := xs) (ys := ys) (ws := ws) (n := length ws)
       (s := repeat LN (length b1 - length (xs ++ ys) - length ws)); auto; len.
    eapply mem_cast; [exact H1|]. rewrite map_app. lapp. do 2 f_equal. rewrite <- repeat_app_add. f_equal. len.
  - intros b' M. simpl in M. apply oks_ok. cbn [fst snd]. split; [eexists; exact M|]. split; auto.
    rewrite <- L1. apply mem_length in M. len.
Qed.

Lemma popBack_ok b vs v :
  holds b (vs ++ [v]) ->
  oks (popBack chk triv b (length (vs ++ [v]))) (fun b' => holds b' vs /\ length b' = length b).
Proof.
  intros H. pose proof (holds_cap H) as Hc. unfold popBack. rewrite check_ok by auto. simpl bind.
  destruct H as [k M]. pose proof (mem_length M) as EL. eapply oks_mono.
  - eapply ArrayManipProofs.popBack_ok with (p := []) (vs := vs) (v := v); eauto. len.
  - intros b' M'. simpl in M'. split.
    + exists (S k). exact M'.
    + apply mem_length in M'. rewrite M', EL. len.
Qed.

Lemma erase_ok b xs d ys :
  holds b (xs ++ d :: ys) ->
  oks (erase chk triv b (length (xs ++ d :: ys)) (Z.of_nat (length xs)))
      (fun b' => holds b' (xs ++ ys) /\ length b' = length b).
Proof.
  intros H. pose proof (holds_cap H) as Hc. unfold erase. rewrite check_ok by auto. simpl bind.
  rewrite error_if_ok by (apply Z.leb_gt; len). simpl bind.
  rewrite check_if_ok by (apply Z.ltb_ge; lia). simpl bind. rewrite to_ix_nat. simpl bind.
  destruct H as [k M]. pose proof (mem_length M) as EL. eapply oks_mono.
  - eapply ArrayManipProofs.erase_ok with (p := []) (xs := xs) (ds := [d]) (ys := ys) (s := repeat LN k); auto; len.
    eapply mem_cast; [exact M|]. rewrite map_app. simpl. lapp; auto.
  - intros b' M'. simpl in M'. split.
    + exists (S k). eapply mem_cast; [exact M'|]. rewrite map_app. lapp; auto.
    + apply mem_length in M'. rewrite M', EL. len.
Qed.

Lemma free_ok b vs :
  holds b vs ->
  oks (free chk triv kind b (length vs)) (fun b' => holds b' []).
Proof.
  intros H. pose proof (holds_cap H) as Hc. unfold free. rewrite check_ok by auto. simpl bind.
  destruct H as [k M].
  eapply oks_bind.
  - eapply destroy_ok with (p := []) (m := LVs vs); auto; [exact M|len].
  - intros b1 M1. simpl in M1. rewrite <- repeat_app_add in M1.
    destruct kind.
    + rewrite (release_ok _ M1). simpl. apply oks_ok. exists 0. constructor.
    + apply oks_ok. eexists. exact M1.
Qed.

Lemma copy_loop_ok (src : buf V) ws : holds src ws -> forall b vs,
  holds b vs -> length vs = length ws ->
  oks (for_up (length ws) (fun i b => v <- rd src i ;; assign triv b i v) 0 b)
      (fun b' => holds b' ws /\ length b' = length b).
Proof.
  intros Hs b vs Hb El.
  assert (Hb' := Hb). destruct Hb' as [k M]. pose proof (mem_length M) as EL.
  eapply oks_mono.
  - apply oks_for_up with (I := fun i b => mem b (LVs (firstn i ws) ++ LVs (skipn i vs) ++ repeat LN k)).
    + simpl. exact M.
    + intros i b' Hi M'.
      destruct (split_nth ws (n:=i)) as (w1 & x & w2 & -> & Hw1); [lia|].
      destruct (split_nth vs (n:=i)) as (v1 & y & v2 & -> & Hv1); [lia|].
      rewrite firstn_app_exact in M' by auto. rewrite skipn_app_exact in M' by auto.
      rewrite (@holds_rd src _ i x Hs) by (apply nth_error_app_mid; auto). simpl bind.
      eapply oks_mono.
      * eapply assign_ok with (p := LVs w1) (c := LV y) (s := LVs v2 ++ repeat LN k); try discriminate.
        -- exact M'.
        -- len.
      * intros b2 M2. replace (w1 ++ x :: w2) with ((w1 ++ [x]) ++ w2) by (lapp; auto).
        replace (v1 ++ y :: v2) with ((v1 ++ [y]) ++ v2) by (lapp; auto).
        rewrite firstn_app_exact by len. rewrite skipn_app_exact by len.
        eapply mem_cast; [exact M2|]. rewrite map_app. lapp; auto.
  - intros b' M'. simpl in M'. rewrite firstn_all2 in M' by lia. rewrite skipn_all2 in M' by lia. simpl in M'.
    split; [eexists; exact M'|]. apply mem_length in M'. rewrite M', EL. len.
Qed.

Lemma copyInto_ok (dst src : buf V) vs ws d :
  holds dst vs -> holds src ws -> can_grow dst (length ws) ->
  oks (copyInto chk triv kind dst (length vs) src (length ws) d)
      (fun b' => holds b' ws /\ length b' = Nat.max (length dst) (length ws)).
Proof.
  intros Hd Hs G. unfold copyInto.
  rewrite check_ok by (apply holds_cap; auto). simpl bind.
  rewrite check_ok by (apply holds_cap; auto). simpl bind.
  eapply oks_bind; [apply resize_ok; auto|].
  intros b1 [H1 L1]. eapply oks_mono.
  - eapply copy_loop_ok; eauto. apply list_resize_length.
  - intros b' [A B]. split; auto. lia.
Qed.

End BMP.
