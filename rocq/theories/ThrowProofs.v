(** Exceptions inside the buffer functions: what is left behind, for T with throwing constructors. *)
From Coq Require Import List Arith ZArith Lia Bool.
From Verif Require Import Base BaseProofs Mem MemProofs BufferManip BufferManipProofs Throw.
From Verif Require ArrayManip ArrayManipProofs.
Import ListNotations.
Set Implicit Arguments.

Definition xspec {A X} (x : xout A X) (Q : nat -> A -> Prop) (T : why -> X -> Prop) : Prop :=
  match x with XOk n a => Q n a | XThrow w t => T w t | XFault _ => False end.

Lemma xspec_bind {A B X} (m : xout A X) (k : nat -> A -> xout B X) (Q : nat -> A -> Prop) Q' T :
  xspec m Q T -> (forall n a, Q n a -> xspec (k n a) Q' T) -> xspec (xbind m k) Q' T.
Proof. destruct m; simpl; auto. Qed.

Lemma xspec_mono {A X} (m : xout A X) (Q Q' : nat -> A -> Prop) (T T' : why -> X -> Prop) :
  xspec m Q T -> (forall n a, Q n a -> Q' n a) -> (forall w t, T w t -> T' w t) -> xspec m Q' T'.
Proof. destruct m; simpl; auto. Qed.

Lemma xspec_left {A X Y} (f : X -> Y) (m : xout A X) (Q : nat -> A -> Prop) (T : why -> Y -> Prop) :
  xspec m Q (fun w x => T w (f x)) -> xspec (xleft f m) Q T.
Proof. destruct m; simpl; auto. Qed.

Section XB.
Variable V : Type.
Variable chk : bool.
Variable kind : bkind.
Notation mem := (@mem V false).
Notation LVs := (map (@LV V)).
Notation holds := (@holds V false).

Lemma destroy_hits b p s m : mem b (p ++ LN :: s) -> Forall live p -> length p < m ->
  ArrayManip.destroy false b 0 m = Fault FDestroy.
Proof.
  intros M L Hm. unfold ArrayManip.destroy.
  assert (G : forall p q m b, mem b (repeat LN q ++ p ++ LN :: s) -> Forall live p -> length p < m ->
    for_up m (fun i b => destroy1 false b (0 + i)) q b = Fault FDestroy).
  { clear. induction p as [|c p IH]; intros q m b M L Hm; destruct m as [|m]; try (simpl in Hm; lia);
      cbn [for_up]; unfold destroy1 at 1; cbn [Nat.add].
    - simpl app in M. apply mem_split in M. destruct M as (bp & bc & bs & -> & M1 & R & M2 & E). rewrite repeat_length in E.
      rewrite aget_mid by auto. simpl in R. destruct R as [R|R]; [discriminate|]. subst bc. reflexivity.
    - inversion L; subst. simpl app in M. apply mem_split in M. destruct M as (bp & bc & bs & -> & M1 & R & M2 & E).
      rewrite repeat_length in E. rewrite aget_mid by auto. cbn [bind].
      assert (B : bc <> Raw) by (destruct c; simpl in R; [subst; discriminate|exfalso; auto|destruct R; [discriminate|subst; discriminate]]).
      destruct bc; try congruence; rewrite aset_mid by auto; cbn [bind]; apply IH; auto; try (simpl in Hm; lia);
        rewrite repeat_app_add; simpl repeat; rewrite <- app_assoc; simpl app; apply mem_mk; simpl; auto. }
  apply (G p 0 m b); auto.
Qed.

Lemma live_LVs (vs : list V) : Forall live (LVs vs).
Proof. induction vs; constructor; auto. discriminate. Qed.

(** The destructor meets a slot without an object. *)
Lemma free_broken b p s m : mem b (p ++ LN :: s) -> Forall live p -> length p < m <= length b ->
  free chk false kind b m = Fault FDestroy.
Proof.
  intros M L Hm. unfold free. rewrite check_ok by lia. cbn [bind]. rewrite (@destroy_hits b p s m M L); auto. lia.
Qed.

Lemma free_broken_holds b vs m : holds b vs -> length vs < m <= length b -> free chk false kind b m = Fault FDestroy.
Proof.
  intros H Hm. apply holds_mem in H. replace (length b - length vs) with (S (length b - length vs - 1)) in H by lia.
  simpl repeat in H. eapply free_broken; [exact H|apply live_LVs|]. rewrite map_length. auto.
Qed.

(** The destructor misses an object. *)
Lemma free_leaks b p q v s : mem b (p ++ q ++ LV v :: s) -> Forall live p ->
  free chk false BMalloc b (length p) = Fault FLeak.
Proof.
  intros M L. unfold free. rewrite check_ok by (apply mem_length in M; rewrite M, app_length; lia). cbn [bind].
  destruct (@ArrayManipProofs.destroy_ok V false b [] p (q ++ LV v :: s) 0 (length p) M eq_refl eq_refl L) as (b' & E & M').
  rewrite E. cbn [bind]. simpl app in M'. unfold release. cbn [orb].
  replace (forallb (@is_raw V) b') with false; auto. symmetry.
  rewrite app_assoc in M'. apply mem_split in M'. destruct M' as (bp & bc & bs & -> & _ & R & _). simpl in R. subst bc.
  rewrite forallb_app. simpl. rewrite andb_false_r. auto.
Qed.

Lemma x_construct_spec b p c s i n v : mem b (p ++ c :: s) -> i = length p -> MemProofs.free c ->
  xspec (x_construct false n b i v)
    (fun n' b' => n = n' + 1 /\ construct false b i v = Ok b' /\ mem b' (p ++ LV v :: s))
    (fun w t => w = Element /\ n = 0 /\ t = b).
Proof.
  intros M E F. destruct (@construct_ok V false b p c s i v M E F) as (b' & Eb & Mb).
  unfold x_construct. destruct n; simpl; auto. rewrite Eb. simpl. repeat split; auto. lia.
Qed.

Lemma x_run_spec m : forall b p s v n start base,
  mem b (p ++ repeat LN m ++ s) -> base + start = length p ->
  xspec (xfor_up m (fun i n b => x_construct false n b (base + i) v) start n b)
    (fun n' b' => n = n' + m /\ for_up m (fun i b => construct false b (base + i) v) start b = Ok b')
    (fun w t => w = Element /\ n < m /\ mem t (p ++ LVs (repeat v n) ++ repeat LN (m - n) ++ s)).
Proof.
  induction m as [|m IH]; intros b p s v n start base M E; cbn [xfor_up for_up].
  - simpl. split; auto.
  - simpl repeat in M. eapply xspec_bind.
    + eapply xspec_mono; [eapply (@x_construct_spec b p LN (repeat LN m ++ s) (base + start) n v M E); simpl; auto| |].
      * intros n' b' H. exact H.
      * intros w t (-> & -> & ->). split; [reflexivity|]. split; [lia|]. simpl. exact M.
    + intros n' b' (-> & Eb & Mb). eapply xspec_mono.
      * apply (IH b' (p ++ [LV v]) s v n' (start + 1) base).
        -- eapply mem_cast; [exact Mb|]. rewrite <- app_assoc. reflexivity.
        -- rewrite app_length. simpl. lia.
      * intros n2 b2 (-> & E2). split; [lia|]. rewrite Eb. exact E2.
      * intros w t (-> & L & M2). split; [reflexivity|]. split; [lia|]. eapply mem_cast; [exact M2|].
        replace (n' + 1) with (S n') by lia. simpl. rewrite <- app_assoc. reflexivity.
Qed.

Lemma x_copy_spec vs : forall b p s n base,
  mem b (p ++ repeat LN (length vs) ++ s) -> base = length p ->
  xspec (x_uninitializedCopy false vs n b base)
    (fun n' b' => n = n' + length vs /\ ArrayManip.uninitializedCopy false vs b base = Ok b')
    (fun w t => w = Element /\ n < length vs /\ mem t (p ++ LVs (firstn n vs) ++ repeat LN (length vs - n) ++ s)).
Proof.
  induction vs as [|v vs IH]; intros b p s n base M E; cbn [x_uninitializedCopy ArrayManip.uninitializedCopy length].
  - simpl. split; auto.
  - simpl in M. eapply xspec_bind.
    + eapply xspec_mono; [eapply (@x_construct_spec b p LN (repeat LN (length vs) ++ s) base n v M E); simpl; auto| |].
      * intros n' b' H. exact H.
      * intros w t (-> & -> & ->). split; [reflexivity|]. split; [lia|]. simpl. exact M.
    + intros n' b' (-> & Eb & Mb). eapply xspec_mono.
      * apply (IH b' (p ++ [LV v]) s n' (base + 1)).
        -- eapply mem_cast; [exact Mb|]. rewrite <- app_assoc. reflexivity.
        -- rewrite app_length. simpl. lia.
      * intros n2 b2 (-> & E2). split; [lia|]. rewrite Eb. exact E2.
      * intros w t (-> & L & M2). split; [reflexivity|]. split; [lia|]. eapply mem_cast; [exact M2|].
        replace (n' + 1) with (S n') by lia. simpl. rewrite <- app_assoc. reflexivity.
Qed.

(** Growing leaves the elements and as many new ones as could be built. *)
Lemma x_resize_spec b vs m v n : holds b vs -> can_grow kind b m ->
  xspec (x_resize chk false kind n b (length vs) m v)
    (fun n' b' => n = n' + (m - length vs) /\ resize chk false kind b (length vs) m v = Ok b')
    (fun w t => w = Element /\ n < m - length vs /\ holds t (vs ++ repeat v n) /\ m <= length t).
Proof.
  intros H G. pose proof (holds_cap H) as Hc. unfold x_resize, resize. rewrite check_ok by auto. cbn [xlift xbind bind].
  destruct (reserve_ok chk H G) as (b1 & E1 & H1 & L1). rewrite E1. cbn [xlift xbind bind].
  unfold x_am_resize, ArrayManip.resize. cbn [Nat.add].
  destruct (le_lt_dec m (length vs)) as [Hle|Hgt].
  - replace (m - length vs) with 0 by lia.
    assert (D : oks (ArrayManip.destroy false b1 m (length vs - m)) (fun _ => True)).
    { eapply oks_mono; [eapply ArrayManipProofs.destroy_ok with (p := LVs (firstn m vs)) (m := LVs (skipn m vs))|auto].
      - eapply mem_cast; [exact (holds_mem H1)|]. rewrite app_assoc, <- map_app, firstn_skipn. reflexivity.
      - rewrite map_length, firstn_length. lia.
      - rewrite map_length, skipn_length. lia.
      - apply live_LVs. }
    destruct D as (b2 & E2 & _). rewrite E2. simpl. auto.
  - replace (length vs - m) with 0 by lia. cbn [ArrayManip.destroy for_up xlift xbind bind].
    eapply xspec_mono.
    + apply (@x_run_spec (m - length vs) b1 (LVs vs) (repeat LN (length b1 - m)) v n (length vs) 0).
      * eapply mem_cast; [exact (holds_mem H1)|]. rewrite <- repeat_app_add. f_equal. f_equal. lia.
      * rewrite map_length. auto.
    + intros n' b' X. exact X.
    + intros w t (-> & L & M). split; [reflexivity|]. split; [exact L|]. split.
      * eexists. eapply mem_cast; [exact M|]. rewrite map_app, <- app_assoc, <- repeat_app_add. reflexivity.
      * apply mem_length in M. rewrite M, !app_length, !map_length, !repeat_length. lia.
Qed.

Lemma x_emplaceBack_spec b vs v n : holds b vs -> can_grow kind b (length vs + 1) ->
  xspec (x_emplaceBack chk false kind n b (length vs) v)
    (fun n' b' => n = n' + 1 /\ emplaceBack chk false kind b (length vs) v = Ok b')
    (fun w t => w = Element /\ n = 0 /\ holds t vs).
Proof.
  intros H G. pose proof (holds_cap H) as Hc. unfold x_emplaceBack, emplaceBack. rewrite check_ok by auto. cbn [xlift xbind bind].
  destruct (dynamicReserve_ok chk H G) as (b1 & E1 & H1 & L1). rewrite E1. cbn [xlift xbind bind].
  assert (length vs + 1 <= length b1) by (rewrite L1; destruct (Nat.ltb_spec (length b) (length vs + 1)); lia).
  pose proof (holds_mem H1) as M. replace (length b1 - length vs) with (S (length b1 - length vs - 1)) in M by lia.
  simpl repeat in M. eapply xspec_mono.
  - apply (@x_construct_spec b1 (LVs vs) LN (repeat LN (length b1 - length vs - 1)) (0 + length vs) n v M); simpl; auto.
    rewrite map_length; auto.
  - intros n' b' (-> & E & _). split; auto.
  - intros w t (-> & -> & ->). auto.
Qed.

Lemma x_emplace_spec b xs ys v n : holds b (xs ++ ys) -> can_grow kind b (length (xs ++ ys) + 1) ->
  xspec (x_emplace chk false kind n b (length (xs ++ ys)) (Z.of_nat (length xs)) v)
    (fun n' b' => n = n' + 1 /\ emplace chk false kind b (length (xs ++ ys)) (Z.of_nat (length xs)) v = Ok b')
    (fun w t => w = Element /\ n = 0 /\ exists k, mem t (LVs xs ++ LN :: LVs ys ++ repeat LN k)).
Proof.
  intros H G. pose proof (holds_cap H) as Hc. unfold x_emplace, emplace.
  rewrite checkInsert_ok by (rewrite ?app_length in *; lia). cbn [xlift xbind bind].
  destruct (dynamicReserve_ok chk H G) as (b1 & E1 & H1 & L1). rewrite E1. cbn [xlift xbind bind].
  rewrite to_ix_nat. cbn [xlift xbind bind].
  assert (length (xs ++ ys) + 1 <= length b1) by (rewrite L1; destruct (Nat.ltb_spec (length b) (length (xs ++ ys) + 1)); lia).
  unfold x_am_emplace, ArrayManip.emplace, ArrayManip.check_insert_bounds.
  rewrite check_if_ok by (apply Nat.ltb_ge; rewrite app_length; lia). cbn [xlift xbind bind].
  set (k := length b1 - length (xs ++ ys) - 1).
  destruct (@ArrayManipProofs.shiftUp_ok V chk false b1 [] xs ys 1 (repeat LN k) 0 (length (xs ++ ys)) (length xs)) as (b2 & E2 & M2).
  - eapply mem_cast; [exact (holds_mem H1)|]. rewrite map_app. simpl. rewrite <- app_assoc. f_equal. f_equal.
    replace (length b1 - length (xs ++ ys)) with (S k) by (unfold k; lia). reflexivity.
  - reflexivity.
  - reflexivity.
  - apply app_length.
  - rewrite E2. cbn [xlift xbind bind]. simpl app in M2. eapply xspec_mono.
    + apply (@x_construct_spec b2 (LVs xs) LN (LVs ys ++ repeat LN k) (0 + length xs) n v M2); simpl; auto. rewrite map_length; auto.
    + intros n' b' (-> & E & _). split; auto.
    + intros w t (-> & -> & ->). split; auto. split; auto. exists k. exact M2.
Qed.

Lemma x_insert_spec b xs ys ws n : holds b (xs ++ ys) -> can_grow kind b (length (xs ++ ys) + length ws) ->
  xspec (x_insert chk false kind n b (length (xs ++ ys)) (Z.of_nat (length xs)) ws)
    (fun n' r => n = n' + length ws /\ insert chk false kind b (length (xs ++ ys)) (Z.of_nat (length xs)) ws = Ok r)
    (fun w t => w = Element /\ n < length ws /\
       exists k, mem t (LVs xs ++ LVs (firstn n ws) ++ repeat LN (length ws - n) ++ LVs ys ++ repeat LN k)).
Proof.
  intros H G. pose proof (holds_cap H) as Hc. unfold x_insert, insert.
  rewrite checkInsert_ok by (rewrite ?app_length in *; lia). cbn [xlift xbind bind].
  destruct (dynamicReserve_ok chk H G) as (b1 & E1 & H1 & L1). rewrite E1. cbn [xlift xbind bind].
  rewrite to_ix_nat. cbn [xlift xbind bind].
  assert (length (xs ++ ys) + length ws <= length b1) by (rewrite L1; destruct (Nat.ltb_spec (length b) (length (xs ++ ys) + length ws)); lia).
  unfold x_am_insert, ArrayManip.insert, ArrayManip.check_insert_bounds.
  rewrite check_if_ok by (apply Nat.ltb_ge; rewrite app_length; lia). cbn [xlift xbind bind].
  set (k := length b1 - length (xs ++ ys) - length ws).
  destruct (@ArrayManipProofs.shiftUp_ok V chk false b1 [] xs ys (length ws) (repeat LN k) 0 (length (xs ++ ys)) (length xs)) as (b2 & E2 & M2).
  - eapply mem_cast; [exact (holds_mem H1)|]. rewrite map_app. simpl. rewrite <- app_assoc. f_equal. f_equal.
    rewrite <- repeat_app_add. f_equal. unfold k; lia.
  - reflexivity.
  - reflexivity.
  - apply app_length.
  - rewrite E2. cbn [xlift xbind bind]. simpl app in M2. eapply xspec_bind.
    + eapply xspec_mono.
      * apply (@x_copy_spec ws b2 (LVs xs) (LVs ys ++ repeat LN k) n (0 + length xs)); [exact M2|rewrite map_length; auto].
      * intros n' b' X. exact X.
      * intros w t (-> & L & M). split; auto. split; auto. exists k. exact M.
    + intros n' b' (-> & E). cbn [xspec]. rewrite E. auto.
Qed.

(** Copying element by element over existing ones. *)
Lemma x_copy_loop_spec (src : buf V) ws : holds src ws -> forall m i b vs n,
  holds b vs -> length vs = length ws -> i + m = length ws ->
  xspec (xfor_up m (fun i n b => xbind (xlift n b (rd src i)) (fun n' v => x_assign false n' b i v)) i n b)
    (fun n' b' => n = n' + m /\ for_up m (fun i b => v <- rd src i ;; assign false b i v) i b = Ok b')
    (fun w t => w = Element /\ n < m /\ holds t (firstn i vs ++ firstn n (skipn i ws) ++ skipn (i + n) vs) /\ length t = length b).
Proof.
  intros Hs. induction m as [|m IH]; intros i b vs n H L E; cbn [xfor_up for_up].
  - simpl. auto.
  - assert (Hi : i < length ws) by lia.
    destruct (nth_error ws i) as [v|] eqn:Ev; [|apply nth_error_None in Ev; lia].
    rewrite (@holds_rd V false src ws i v Hs Ev). cbn [xlift xbind bind].
    assert (A : oks (assign false b i v) (fun b' => holds b' (firstn i vs ++ [v] ++ skipn (S i) vs) /\ length b' = length b)).
    { destruct (@split_nth _ vs i ltac:(lia)) as (p & x & s & -> & Lp). destruct H as (k & M).
      rewrite map_app in M. simpl in M. rewrite <- app_assoc in M. simpl in M. unfold assign.
      destruct (@store_ok V false b (LVs p) (LV x) (LVs s ++ repeat LN k) i (Obj v) (LV v) M) as (b' & Eb & Mb).
      - rewrite map_length; auto.
      - discriminate.
      - reflexivity.
      - exists b'. split; auto. split; [|apply mem_length in M; apply mem_length in Mb; rewrite M, Mb, !app_length; reflexivity]. exists k. eapply mem_cast; [exact Mb|].
        rewrite firstn_app, Lp, Nat.sub_diag, firstn_O, app_nil_r. rewrite firstn_all2 by lia.
        replace (S i) with (length (p ++ [x])) by (rewrite app_length; simpl; lia).
        replace (p ++ x :: s) with ((p ++ [x]) ++ s) by (rewrite <- app_assoc; reflexivity).
        rewrite skipn_app, Nat.sub_diag, skipn_all. simpl. rewrite map_app. simpl. rewrite <- app_assoc. reflexivity. }
    destruct A as (b' & Eb & Hb & Lb). unfold x_assign at 1. destruct n as [|n].
    + cbn [xbind xspec]. split; auto. split; [lia|]. rewrite Nat.add_0_r. simpl. rewrite firstn_skipn. auto.
    + rewrite Eb. cbn [xlift xbind bind]. eapply xspec_mono.
      * apply (IH (i + 1) b' (firstn i vs ++ [v] ++ skipn (S i) vs) n Hb); [|lia].
        rewrite !app_length, firstn_length, skipn_length. simpl. lia.
      * intros n' b2 (-> & E2). split; [lia|]. exact E2.
      * intros w t (-> & Lt & Ht & LT). split; auto. split; [lia|]. split; [|lia].
        assert (F1 : firstn (i + 1) (firstn i vs ++ [v] ++ skipn (S i) vs) = firstn i vs ++ [v]).
        { rewrite app_assoc. rewrite firstn_app. rewrite app_length, firstn_length. simpl.
          replace (i + 1 - (Nat.min i (length vs) + 1)) with 0 by lia. rewrite firstn_O, app_nil_r.
          apply firstn_all2. rewrite app_length, firstn_length. simpl. lia. }
        assert (F2 : skipn (i + 1 + n) (firstn i vs ++ [v] ++ skipn (S i) vs) = skipn (i + S n) vs).
        { rewrite app_assoc. rewrite skipn_app. rewrite skipn_all2 by (rewrite app_length, firstn_length; simpl; lia).
          rewrite app_length, firstn_length. simpl length. simpl app.
          replace (i + 1 + n - (Nat.min i (length vs) + 1)) with n by lia.
          replace (i + S n) with (S i + n) by lia.
          assert (SS : forall j (l : list V), skipn n (skipn j l) = skipn (j + n) l).
          { induction j; intros l; [reflexivity|]. destruct l; simpl; auto. apply skipn_nil. }
          apply (SS (S i)). }
        rewrite F1, F2 in Ht. rewrite <- app_assoc in Ht.
        replace (firstn (S n) (skipn i ws)) with (v :: firstn n (skipn (i + 1) ws)); [exact Ht|].
        clear -Ev. revert i Ev. induction ws as [|w ws IH]; intros [|i] Ev; simpl in *; try discriminate.
        -- injection Ev as ->. reflexivity.
        -- apply IH; auto.
Qed.

(** What copyInto leaves behind. *)
Lemma x_copyInto_spec dst src vs ws d n : holds dst vs -> holds src ws -> can_grow kind dst (length ws) ->
  xspec (x_copyInto chk false kind n dst (length vs) src (length ws) d)
    (fun n' b' => n = n' + (length ws - length vs) + length ws /\ copyInto chk false kind dst (length vs) src (length ws) d = Ok b')
    (fun w t => w = Element /\
       ((n < length ws - length vs /\ holds t (vs ++ repeat d n) /\ length ws <= length t) \/
        (exists j, n = (length ws - length vs) + j /\ j < length ws /\ length ws <= length t /\ length vs <= length t /\
                   holds t (firstn j ws ++ skipn j (firstn (length ws) vs ++ repeat d (length ws - length vs)))))).
Proof.
  intros H Hs G. pose proof (holds_cap H) as Hc. pose proof (holds_cap Hs) as Hcs. unfold x_copyInto, copyInto.
  rewrite !check_ok by auto. cbn [xlift xbind bind].
  eapply xspec_bind.
  - eapply xspec_mono; [apply (x_resize_spec d n H G)| |].
    + intros n' b' X. exact X.
    + intros w t (-> & L & Ht & LT). split; auto.
  - intros n' b' (-> & E). destruct (@resize_ok V chk false kind dst vs (length ws) d H G) as (b2 & E2 & H2 & L2).
    rewrite E in E2. injection E2 as <-. rewrite E. cbn [bind].
    eapply xspec_mono.
    + apply (@x_copy_loop_spec src ws Hs (length ws) 0 b' _ n' H2); [apply list_resize_length|auto].
    + intros n2 b3 (-> & E3). split; [lia|]. exact E3.
    + intros w t (-> & L & Ht & LT). split; auto. right. exists n'. split; [lia|]. split; [lia|].
      simpl in Ht. rewrite LT, L2. split; [lia|]. split; [lia|]. exact Ht.
Qed.

End XB.
