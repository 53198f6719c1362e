(** What an exception leaves of a SortedArray. *)
From Coq Require Import List Arith ZArith Lia Bool Sorting.Sorted.
From Verif Require Import Base BaseProofs Mem MemProofs BufferManip BufferManipProofs Sorted SortedSpec SortedProofs SortedProofs2
  SortedProofs3 SortedArray SortedArraySpec SortedArrayProofs Throw ThrowProofs ThrowAoASpec ThrowSorted ThrowSortedSpec ThrowSortedProofs.
From Verif Require CopyMoveProofs ThrowProofs3.
Import ListNotations.
Set Implicit Arguments.
Unset Strict Implicit.

Section Proofs.
Variable V : Type.
Variable chk : bool.
Variable lt eqb : V -> V -> bool.
Variable dflt : V.
Hypothesis T : total_order lt eqb.
Notation incr l := (StronglySorted (fun x y => lt x y = true) l).
Notation kind := BMalloc.
Notation LVs := (map (@LV V)).
Notation mem := (@mem V false).
Notation sa_ok := (sa_ok false lt).
Notation present := (present eqb (fun v : V => v)).
Notation dtor t := (s_dtor chk false kind t).

(** The object left behind showed [l] before. *)
Definition left_s (st : state_left) (t : sarray V) (l : list V) : Prop :=
  match st with
  | Usable => sa_ok t l
  | Forgets => dtor t = Fault FLeak
  | Corrupt => dtor t = Fault FDestroy
  end.

Lemma dtor_usable (t : sarray V) l : sa_ok t l -> dtor t = Ok tt.
Proof.
  intros (H & Hs & _). unfold s_dtor. rewrite Hs.
  destruct (@free_ok V chk false kind (s_buf t) l H) as (b & E & _). rewrite E. reflexivity.
Qed.

Lemma among_present l v : among eqb l v = present l v.
Proof.
  unfold among, SortedProofs2.present. induction l as [|e l IH]; simpl; auto. rewrite IH. f_equal.
  apply eq_true_iff_eq. rewrite !(to_eq T). split; auto.
Qed.
Lemma new_missing l vs : new_values eqb vs l = filter (fun w => negb (present l w)) vs.
Proof. apply filter_ext. intros. rewrite among_present. reflexivity. Qed.

Definition around (p s : list (lcell V)) (x : unit) : Prop := p = [] /\ exists k, s = repeat LN k.

Lemma inc_room (a : sarray V) l m : holds false (s_buf a) l ->
  exists r, cb_inc (s_cb V chk false kind (length l)) m (s_buf a, tt) = Ok r /\ room around l m r.
Proof.
  intros H. cbn [cb_inc s_cb fst]. destruct (@dynamicReserve_ok V chk false kind _ l (length l + m) H (or_introl eq_refl)) as (b' & E & H' & L').
  exists (b', tt, 0). rewrite E. split; [reflexivity|]. cbn. exists [], (repeat LN (length b' - length l - m)).
  split; [reflexivity|]. split; [split; eauto|]. pose proof (holds_cap H) as C. apply holds_mem in H'. simpl.
  rewrite <- repeat_app_add. eapply mem_cast; [exact H'|]. f_equal. f_equal.
  rewrite L'. destruct (Nat.ltb_spec (length (s_buf a)) (length l + m)); lia.
Qed.

Lemma torn_left c l r n t size : incr l -> size = length l -> n < scost eqb c l ->
  torn lt around l (asked eqb c l) r n t -> left_s (sleft lt eqb c l n) (mkS (fst t) size) l.
Proof.
  intros I -> Hn. unfold torn. destruct r as [[b1 x1] base].
  intros (_ & v & A1 & A2 & C & p & s & Nv & El & L1 & L2 & _ & (-> & k & ->) & LC & D).
  unfold sleft. rewrite Nv. unfold scost in Hn.
  assert (EN : number_less lt l v = length A1).
  { rewrite El. apply number_less_split; auto. eapply Forall_impl; [|exact L2]. intros e He. apply (lt_le (to_swo T)). auto. }
  rewrite EN. destruct D as [[NE M]|[-> M]]; simpl app in M.
  - destruct (Nat.ltb_spec (length A1) (length l)) as [Hlt|Hge].
    + cbn [left_s]. unfold s_dtor. cbn [s_buf s_size].
      replace (length (asked eqb c l) - n) with (S (length (asked eqb c l) - n - 1)) in M by lia.
      rewrite (@free_broken V chk kind (fst t) (LVs A1) (repeat LN (length (asked eqb c l) - n - 1) ++ LVs C ++ repeat LN k) (length l)).
      * reflexivity.
      * eapply mem_cast; [exact M|]. reflexivity.
      * apply live_LVs.
      * apply mem_length in M. rewrite M. rewrite !app_length, !map_length, !repeat_length, LC. rewrite El in *. rewrite app_length in *. lia.
    + assert (A2 = []) as -> by (destruct A2; auto; rewrite El, app_length in Hge; simpl in Hge; lia).
      rewrite app_nil_r in El. subst A1. destruct (Nat.eqb_spec n 0) as [N0|N0].
      * destruct C; [|simpl in LC; lia]. split; [|split; [reflexivity|exact I]]. simpl in M. cbn [s_buf]. eexists.
        eapply mem_cast; [exact M|]. rewrite <- repeat_app_add. reflexivity.
      * destruct C as [|e C]; [simpl in LC; lia|]. cbn [left_s]. unfold s_dtor. cbn [s_buf s_size].
        rewrite <- (map_length (@LV V) l). erewrite free_leaks; [reflexivity|eapply mem_cast; [exact M|reflexivity]|apply live_LVs].
  - assert (length A1 = 0 /\ A2 = []) as [Z1 ->].
    { symmetry in El. apply app_eq_nil in El. destruct El as [-> ->]. auto. }
    rewrite Z1. simpl. destruct (Nat.eqb_spec n 0) as [N0|N0].
    + destruct C; [|simpl in LC; lia]. split; [|split; [reflexivity|constructor]]. simpl in M. cbn [s_buf]. eexists. simpl.
      eapply mem_cast; [exact M|]. rewrite <- repeat_app_add. reflexivity.
    + destruct C as [|e C]; [simpl in LC; lia|]. cbn [left_s]. unfold s_dtor. cbn [s_buf s_size].
      pose proof (@free_leaks V chk (fst t) [] [] e _ M (Forall_nil _)) as FL. simpl in FL. rewrite FL. reflexivity.
Qed.

Lemma x_sstep_ok c a l n : sa_ok a l -> allowed lt c ->
  xspec (x_sstep chk false lt eqb dflt n c a)
    (fun n' r => n = n' + scost eqb c l /\ sstep chk false kind lt eqb dflt c a = Ok r)
    (fun w t => w = Element /\ n < scost eqb c l /\ left_s (sleft lt eqb c l n) t l).
Proof.
  intros A Al. pose proof A as (H & Hs & I).
  assert (M : mem (s_buf a) ([] ++ LVs l ++ repeat LN (length (s_buf a) - length l))) by exact (holds_mem H).
  destruct c as [v|vs|v|vs| |m]; cbn [x_sstep].
  3,4,5,6: destruct (@sstep_ok V chk false lt eqb dflt T _ a l A Al) as (r & E & _); rewrite E; cbn [xlift xspec];
    split; [unfold scost; simpl; lia|reflexivity].
  - unfold x_s_insert. cbn [sstep]. unfold s_insert. rewrite Hs.
    assert (EQ : asked eqb (SInsert v) l = filter (fun w => negb (present l w)) [v]) by apply new_missing.
    destruct (@inc_room a l (length (filter (fun w => negb (present l w)) [v])) H) as (r & Er & Hr).
    eapply xspec_bind; [apply xspec_left; eapply xspec_mono; [eapply (@x_insert1_spec V unit chk lt eqb T (s_cb V chk false kind (length l)) (fun _ _ => eq_refl) around); eauto| |]|].
    + intros n' r' X. exact X.
    + intros w t (-> & Hn & Ht). unfold scost. rewrite EQ. split; [reflexivity|]. split; [exact Hn|].
      eapply torn_left; eauto; [unfold scost; rewrite EQ; exact Hn|rewrite EQ; exact Ht].
    + intros n' [[b x] ok] (-> & E). unfold scost. rewrite EQ, E. cbn [xspec]. split; reflexivity.
  - unfold x_s_inserts. cbn [sstep]. unfold s_inserts. rewrite Hs. apply increasing_strong in Al.
    assert (EQ : asked eqb (SInsertRange vs) l = filter (fun w => negb (present l w)) vs) by apply new_missing.
    destruct (@inc_room a l (length (filter (fun w => negb (present l w)) vs)) H) as (r & Er & Hr).
    eapply xspec_bind; [apply xspec_left; eapply xspec_mono; [eapply (@x_inserts_spec V unit chk lt eqb T (s_cb V chk false kind (length l)) (fun _ _ => eq_refl) around); eauto| |]|].
    + intros n' r' X. exact X.
    + intros w t (-> & Hn & Ht). unfold scost. rewrite EQ. split; [reflexivity|]. split; [exact Hn|].
      eapply torn_left; eauto; [unfold scost; rewrite EQ; exact Hn|rewrite EQ; exact Ht].
    + intros n' [[b x] ok] (-> & E). unfold scost. rewrite EQ, E. cbn [xspec]. split; reflexivity.
Qed.

(** The specification of the contents is the set of C19. *)
Lemma filter_incr (f : V -> bool) l : incr l -> incr (filter f l).
Proof.
  induction 1 as [|e es I IH F]; [constructor|]. simpl. destruct (f e); auto. constructor; auto.
  apply Forall_forall. intros x Hx. apply filter_In in Hx. rewrite Forall_forall in F. apply F. tauto.
Qed.
Lemma put_in v l x : In x (put lt v l) <-> x = v \/ In x l.
Proof.
  unfold put. rewrite in_app_iff. simpl. rewrite !filter_In. split; [intuition|].
  intros [->|Hx]; auto. destruct (lt x v) eqn:E1; auto. destruct (lt v x) eqn:E2; auto.
  right. left. symmetry. apply (to_total T); auto.
Qed.
Lemma put_incr v l : incr l -> incr (put lt v l).
Proof.
  intros I. unfold put. apply strong_app. split; [apply filter_incr; auto|]. split.
  - constructor; [apply filter_incr; auto|]. apply Forall_forall. intros x Hx. apply filter_In in Hx. tauto.
  - intros x y Hx Hy. apply filter_In in Hx. destruct Hx as [_ Hx]. destruct Hy as [<-|Hy]; auto.
    apply filter_In in Hy. eapply (trans (to_swo T)); [exact Hx|tauto].
Qed.
Lemma among_in l v : among eqb l v = true <-> In v l.
Proof.
  unfold among. rewrite existsb_exists. split.
  - intros (x & Hx & E). apply (to_eq T) in E. subst; auto.
  - intros Hv. exists v. split; auto. apply (to_eq T). auto.
Qed.
Lemma contents_set c l : incr l -> incr (contents_after lt eqb c l) /\
  forall x, In x (contents_after lt eqb c l) <-> set_after c (fun x => In x l) x.
Proof.
  intros I. destruct c as [v|vs|v|vs| |m]; cbn [contents_after set_after].
  - split; [apply put_incr; auto|apply put_in].
  - split; [induction vs; simpl; auto; apply put_incr; auto|]. intros x. induction vs as [|v vs IH]; simpl; [tauto|].
    rewrite put_in, IH. intuition.
  - split; [apply filter_incr; auto|]. intros x. rewrite filter_In, negb_true_iff.
    split; intros [H1 H2]; split; auto.
    + intros ->. assert (E : eqb v v = true) by (apply (to_eq T); auto). congruence.
    + destruct (eqb x v) eqn:E; auto. apply (to_eq T) in E. contradiction.
  - split; [apply filter_incr; auto|]. intros x. rewrite filter_In, negb_true_iff.
    split; intros [H1 H2]; split; auto.
    + intros H3. apply among_in in H3. congruence.
    + destruct (among eqb vs x) eqn:E; auto. apply among_in in E. contradiction.
  - split; [constructor|]. simpl. tauto.
  - split; auto. tauto.
Qed.
Lemma sstep_contents c a l : sa_ok a l -> allowed lt c ->
  oks (sstep chk false kind lt eqb dflt c a) (fun r => sa_ok (fst r) (contents_after lt eqb c l)).
Proof.
  intros A Al. eapply oks_mono; [apply (@sstep_ok V chk false lt eqb dflt T c a l A Al)|].
  intros r (l' & A' & S' & _). destruct (@contents_set c l) as [I2 S2]; [apply A|].
  replace (contents_after lt eqb c l) with l'; auto. pose proof A' as (_ & _ & I').
  eapply (CopyMoveProofs.incr_unique (lt := lt) (eqb := eqb)); eauto. intros x. rewrite S', S2. tauto.
Qed.

Lemma x_srun_ok h : forall a l, sa_ok a l -> Forall (fun nc => allowed lt (snd nc)) h ->
  oks (x_srun chk false lt eqb dflt h a) (fun t => left_s (snd (sfate lt eqb h l)) t (fst (sfate lt eqb h l))).
Proof.
  induction h as [|[n c] h IH]; intros a l A F; cbn [x_srun sfate].
  - apply oks_ok. exact A.
  - inversion F as [|? ? Al F']; subst. cbn [snd] in Al.
    pose proof (@x_sstep_ok c a l n A Al) as S. destruct (x_sstep chk false lt eqb dflt n c a) as [n' r|w t|f]; cbn [xspec] in S; [| |contradiction].
    + destruct S as [-> E]. replace (scost eqb c l <=? n' + scost eqb c l) with true by (symmetry; apply Nat.leb_le; lia).
      destruct (@sstep_contents c a l A Al) as (r' & E' & A'). rewrite E in E'. injection E' as <-. apply IH; auto.
    + destruct S as (-> & Hn & L). replace (scost eqb c l <=? n) with false by (symmetry; apply Nat.leb_gt; lia).
      destruct (sleft lt eqb c l n) eqn:EL; cbn [left_s] in L.
      * rewrite (dtor_usable L). apply IH; auto.
      * rewrite L. apply oks_ok. exact L.
      * rewrite L. apply oks_ok. exact L.
Qed.

(** Copy assignment *)
Lemma x_s_assign_ok a b vs ws n : sa_ok a vs -> sa_ok b ws ->
  let k := (length ws - length vs) + length ws in
  xspec (x_s_assign chk false dflt n a b)
    (fun n' a' => n = n' + k /\ sa_ok a' ws)
    (fun w t => w = Element /\ n < k /\ s_size t = length vs /\ length ws <= length (s_buf t) /\
       (length ws < length vs -> dtor t = Fault FDestroy) /\
       (length vs < length ws -> n <> 0 -> dtor t = Fault FLeak) /\
       (length vs < length ws -> n = 0 -> sa_ok t vs) /\
       (length vs = length ws -> holds false (s_buf t) (firstn n ws ++ skipn n vs))).
Proof.
  intros (H & Hs & I) (H2 & Hs2 & I2) k. unfold x_s_assign. rewrite Hs, Hs2.
  eapply xspec_bind; [apply xspec_left|].
  - pose proof (@x_copyInto_spec V chk kind (s_buf a) (s_buf b) vs ws dflt n H H2 (or_introl eq_refl)) as S.
    eapply xspec_mono; [exact S| |].
    + intros n' b' X. exact X.
    + intros w t (-> & D). split; [reflexivity|]. cbn [s_size s_buf]. unfold s_dtor, k. cbn [s_size s_buf].
      destruct D as [(Ln & Ht & Lt)|(j & -> & Lj & Lt & Lt2 & Ht)].
      * split; [lia|]. split; [reflexivity|]. split; [exact Lt|]. split; [lia|]. split; [|split].
        -- intros _ Hn. rewrite (@ThrowProofs3.free_leaks_holds V chk t (vs ++ repeat dflt n) (length vs) Ht); auto.
           rewrite app_length, repeat_length. lia.
        -- intros _ ->. simpl in Ht. rewrite app_nil_r in Ht. split; [exact Ht|]. auto.
        -- lia.
      * split; [lia|]. split; [reflexivity|]. split; [exact Lt|]. split; [|split; [|split]].
        -- intros Lw. rewrite (@free_broken_holds V chk BMalloc t _ (length vs) Ht); auto.
           rewrite app_length, skipn_length, app_length, !firstn_length, repeat_length. lia.
        -- intros Lw _. rewrite (@ThrowProofs3.free_leaks_holds V chk t _ (length vs) Ht); auto.
           rewrite app_length, skipn_length, app_length, !firstn_length, repeat_length. lia.
        -- lia.
        -- intros Lw. rewrite Lw, Nat.sub_diag in *. simpl repeat in Ht. rewrite app_nil_r in Ht.
           rewrite <- Lw, firstn_all in Ht. exact Ht.
  - intros n' b' (-> & E). cbn. split; [unfold k; lia|].
    destruct (@copyInto_ok V chk false kind (s_buf a) (s_buf b) vs ws dflt H H2 (or_introl eq_refl)) as (b2 & E2 & H3 & _).
    rewrite E in E2. injection E2 as <-. split; [exact H3|]. auto.
Qed.
End Proofs.
