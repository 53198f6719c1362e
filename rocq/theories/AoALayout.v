(** The layout of one value buffer of an array of arrays: rows of elements, each followed by its unused
    capacity, then unused slots. *)
From Coq Require Import List Arith ZArith Lia Bool.
From Verif Require Import Base BaseProofs Mem MemProofs ArrayManipProofs BufferManip BufferManipProofs.
From Verif Require ArrayManip.
Import ListNotations.
Set Implicit Arguments.
Unset Strict Implicit.

(** Success, or the one fault a reallocation of a buffer with unconstructed slots can have. *)
Definition okb {A} (t : bool) (m : outcome A) (Q : A -> Prop) : Prop :=
  oks m Q \/ (t = false /\ m = Fault FMove).

Lemma okb_oks {A} t (m : outcome A) Q : oks m Q -> okb t m Q.
Proof. left; auto. Qed.
Lemma okb_bind {A B} t (m : outcome A) (k : A -> outcome B) (P : A -> Prop) (Q : B -> Prop) :
  okb t m P -> (forall a, P a -> okb t (k a) Q) -> okb t (bind m k) Q.
Proof. intros [[a [-> H]]|[T ->]] H2; simpl; auto. right; auto. Qed.
Lemma okb_mono {A} t (m : outcome A) (P Q : A -> Prop) :
  okb t m P -> (forall a, P a -> Q a) -> okb t m Q.
Proof. intros [H|H] H2; [left; eapply oks_mono; eauto|right; auto]. Qed.

Lemma okb_or_l {A} t c (m : outcome A) Q : okb (t || c) m Q -> okb t m Q.
Proof. intros [H|[T E]]; [left; auto|right]. apply orb_false_iff in T. tauto. Qed.
Lemma okb_true {A} (m : outcome A) Q : okb true m Q -> oks m Q.
Proof. intros [H|[T E]]; [auto|discriminate]. Qed.

(** * Rows *)
Section Rows.
Variable P : Type.
Notation row := (list P * nat)%type.
Notation rows := (list row).
Implicit Types L : rows.

Definition wid (r : row) : nat := length (fst r) + snd r.
Fixpoint total L : nat := match L with [] => 0 | r :: L' => wid r + total L' end.
Fixpoint offsets (o : nat) L : list nat :=
  match L with [] => [o] | r :: L' => o :: offsets (o + wid r) L' end.
Fixpoint starts (o : nat) L : list nat :=
  match L with [] => [] | r :: L' => o :: starts (o + wid r) L' end.
(** No unused capacity anywhere. *)
Definition nogap L : bool := forallb (fun r => snd r =? 0) L.
Definition sizes L : list nat := map (fun r => length (fst r)) L.

Lemma offsets_app L L' o : offsets o (L ++ L') = starts o L ++ offsets (o + total L) L'.
Proof.
  revert o; induction L as [|r L IH]; simpl; intros o; [f_equal; lia|].
  rewrite IH. do 3 f_equal. lia.
Qed.
Lemma offsets_last L o : offsets o L = starts o L ++ [o + total L].
Proof. rewrite <- (app_nil_r L) at 1. rewrite offsets_app. reflexivity. Qed.
Lemma starts_app L L' o : starts o (L ++ L') = starts o L ++ starts (o + total L) L'.
Proof.
  revert o; induction L as [|r L IH]; simpl; intros o; [f_equal; lia|].
  rewrite IH. do 3 f_equal. lia.
Qed.
Lemma total_app L L' : total (L ++ L') = total L + total L'.
Proof. induction L; simpl; lia. Qed.
Lemma starts_length L o : length (starts o L) = length L.
Proof. revert o; induction L; simpl; auto. Qed.
Lemma offsets_length L o : length (offsets o L) = length L + 1.
Proof. rewrite offsets_last, app_length, starts_length. reflexivity. Qed.
Lemma offsets_cons o L : exists l, offsets o L = o :: l.
Proof. destruct L; simpl; eauto. Qed.
Lemma offsets_nth L k : k <= length L -> nth_error (offsets 0 L) k = Some (total (firstn k L)).
Proof.
  intros H. rewrite <- (firstn_skipn k L) at 1. rewrite offsets_app.
  rewrite nth_error_app2; rewrite starts_length, firstn_length; [|lia].
  replace (k - Nat.min k (length L)) with 0 by lia.
  destruct (offsets_cons (0 + total (firstn k L)) (skipn k L)) as [l ->]. reflexivity.
Qed.
Lemma offsets_shift L o d : map (fun x => x + d) (offsets o L) = offsets (o + d) L.
Proof.
  revert o; induction L as [|r L IH]; simpl; intros o; auto. f_equal. rewrite IH. f_equal. lia.
Qed.
Lemma offsets_ge L o y : In y (offsets o L) -> o <= y.
Proof. revert o; induction L as [|x L IH]; simpl; intros o [<-|H]; auto; [contradiction|]. apply IH in H. lia. Qed.
Lemma offsets_sub L o d : d <= o -> map (fun y => y - d) (offsets o L) = offsets (o - d) L.
Proof. revert o; induction L as [|x L IH]; simpl; intros o H; auto. f_equal. rewrite IH by lia. f_equal. lia. Qed.
Lemma sizes_app L L' : sizes (L ++ L') = sizes L ++ sizes L'.
Proof. apply map_app. Qed.
Lemma sizes_length L : length (sizes L) = length L.
Proof. apply map_length. Qed.
Lemma sizes_nth L k r : nth_error L k = Some r -> nth_error (sizes L) k = Some (length (fst r)).
Proof. intros H. unfold sizes. apply (map_nth_error (fun r => length (fst r))). auto. Qed.
End Rows.

Section Layout.
Variable P V : Type.
Variable f : P -> V.
Variable chk t : bool.
Notation row := (list P * nat)%type.
Notation rows := (list row).
Notation mem := (@mem V t).
Notation LVs := (map (@LV V)).
Implicit Types L A B T : rows.
Implicit Types b : buf V.

Definition cells (r : row) : list (lcell V) := LVs (map f (fst r)) ++ repeat LN (snd r).
Definition flat L : list (lcell V) := flat_map cells L.
Definition lay b L : Prop := exists k, mem b (flat L ++ repeat LN k).

Lemma cells_length r : length (cells r) = wid r.
Proof. unfold cells, wid. len. Qed.
Lemma flat_length L : length (flat L) = total L.
Proof. induction L as [|a L IH]; simpl; auto. rewrite app_length, cells_length. change (flat_map cells L) with (flat L). lia. Qed.
Lemma flat_app L L' : flat (L ++ L') = flat L ++ flat L'.
Proof. apply flat_map_app. Qed.
Lemma lay_cap b L : lay b L -> total L <= length b.
Proof. intros [k M]. apply mem_length in M. rewrite app_length, flat_length in M. lia. Qed.

Definition gap_free (l : list (lcell V)) : Prop := Forall (fun c => c <> LM) l.
Lemma flat_gap_free L : gap_free (flat L).
Proof.
  unfold gap_free, flat. induction L as [|r L IH]; simpl; auto. apply Forall_app; split; auto.
  unfold cells. apply Forall_app; split; apply Forall_forall; intros c H.
  - apply in_map_iff in H. destruct H as (x & <- & _). discriminate.
  - apply repeat_spec in H. subst. discriminate.
Qed.

(** Moving a range some of whose slots hold nothing. *)
Lemma move_ok l : gap_free l -> forall i d pd sd s ps ss n,
  n = length l ->
  mem d (pd ++ repeat LN n ++ sd) -> mem s (ps ++ l ++ ss) -> i = length pd -> i = length ps ->
  okb t (for_up n (fun i ds => let '(d, s) := ds in
                '(c, s') <- take t s (0 + i) ;; d' <- place t d (0 + i) c ;; Ok (d', s')) i (d, s))
    (fun r => mem (fst r) (pd ++ l ++ sd) /\ mem (snd r) (ps ++ repeat LM n ++ ss)).
Proof.
  induction l as [|c l IH]; intros G i d pd sd s ps ss n -> Hd Hs Ei Ej; simpl length in *; cbn [for_up].
  - left. apply oks_ok. simpl in *. auto.
  - pose proof (Forall_inv G) as Gc. apply Forall_inv_tail in G.
    assert (K : okb t ('(c0, s') <- take t s (0 + i) ;; d' <- place t d (0 + i) c0 ;; Ok (d', s'))
       (fun r => mem (fst r) (pd ++ c :: repeat LN (length l) ++ sd) /\ mem (snd r) (ps ++ LM :: l ++ ss))).
    { destruct c as [v| |]; [| |congruence].
      - left. eapply oks_bind; [eapply take_ok with (p := ps) (s := l ++ ss); eauto|].
        intros [c s'] [X Ms]. simpl in X. subst c.
        eapply oks_bind; [eapply place_ok with (p := pd) (c := LN) (s := repeat LN (length l) ++ sd) (lx := LV v); simpl; eauto|].
        intros d' Md. apply oks_ok. auto.
      - simpl app in Hs. apply mem_split in Hs. destruct Hs as (bp & bc & bs & -> & H1 & H2 & H3 & H4).
        unfold take at 1. rewrite aget_mid by lia. cbn [bind].
        destruct t eqn:Et.
        + left. cbn [bind].
          eapply oks_bind; [eapply place_ok with (p := pd) (c := LN) (s := repeat LN (length l) ++ sd) (lx := LN); simpl; eauto|].
          intros d' Md. apply oks_ok. split; [exact Md|]. simpl. apply mem_mk; simpl; auto.
        + right. split; auto. simpl in H2. destruct H2 as [H2|H2]; [discriminate|]. subst bc. reflexivity. }
    eapply okb_bind; [exact K|]. intros [d' s'] [Md Ms]. simpl in Md, Ms.
    eapply okb_mono; [eapply IH with (pd := pd ++ [c]) (ps := ps ++ [LM]) (sd := sd) (ss := ss); auto|].
    + eapply mem_cast; [exact Md|]. lapp; auto.
    + eapply mem_cast; [exact Ms|]. lapp; auto.
    + len.
    + len.
    + intros r [Q1 Q2]. split; (eapply mem_cast; [eassumption|lapp; auto]).
Qed.

Lemma reallocate_lay b l k n :
  gap_free l -> mem b (l ++ repeat LN k) -> length l <= n ->
  okb t (reallocate t BMalloc b (length l) n) (fun b' => mem b' (l ++ repeat LN (n - length l))).
Proof.
  intros G M Hn. unfold reallocate. rewrite Nat.min_r by lia.
  eapply okb_bind.
  - unfold ArrayManip.uninitializedMove.
    eapply move_ok with (l := l) (pd := []) (ps := []) (sd := repeat LN (n - length l)) (ss := repeat LN k); auto.
    eapply mem_cast; [apply mem_repeat_raw with (n := n)|]. simpl. rewrite <- repeat_app_add. f_equal; lia.
  - intros [nb b1] [Mn Mb]. simpl in Mn, Mb. left.
    eapply oks_bind.
    + eapply destroy_ok with (p := []) (m := repeat LM (length l)); auto; [exact Mb|len].
    + intros b2 M2. simpl in M2. rewrite <- repeat_app_add in M2.
      rewrite (release_ok _ M2). simpl. apply oks_ok. exact Mn.
Qed.

Lemma nogap_flat L : nogap L = true -> exists vs, flat L = LVs vs.
Proof.
  induction L as [|[r k] L IH]; simpl; intros H; [exists []; auto|]. apply andb_true_iff in H. destruct H as [H1 H2].
  apply Nat.eqb_eq in H1. subst k. destruct (IH H2) as [vs E]. exists (map f r ++ vs). rewrite E, map_app.
  unfold cells. simpl. rewrite app_nil_r. reflexivity.
Qed.
Lemma nogap_holds b L : lay b L -> nogap L = true -> exists vs, holds t b vs /\ length vs = total L /\
  forall b', holds t b' vs -> lay b' L.
Proof.
  intros [k M] G. destruct (nogap_flat G) as [vs E]. exists vs. split; [|split].
  - exists k. rewrite <- E. exact M.
  - rewrite <- flat_length, E, map_length. auto.
  - intros b' [k' M']. exists k'. rewrite E. exact M'.
Qed.

Lemma reserve_lay b L n :
  lay b L -> okb (t || nogap L) (reserve chk t BMalloc b (total L) n) (fun b' => lay b' L /\ length b' = Nat.max (length b) n).
Proof.
  intros H. destruct (nogap L) eqn:G.
  { left. destruct (nogap_holds H G) as (vs & Hv & <- & B).
    eapply oks_mono; [apply (BufferManipProofs.reserve_ok chk (kind := BMalloc) (n := n) Hv); left; auto|].
    intros b' [Hb Lb]. split; auto. }
  rewrite orb_false_r. pose proof (lay_cap H) as C. unfold reserve, capacity. rewrite check_ok by auto. cbn [bind].
  destruct (Nat.ltb_spec (length b) n).
  - unfold setCapacity. rewrite check_ok by auto. cbn [bind]. destruct H as [k M].
    rewrite <- (flat_length L).
    eapply okb_mono; [eapply reallocate_lay; eauto using flat_gap_free; rewrite flat_length; lia|].
    intros b' M'. split; [eexists; exact M'|]. apply mem_length in M'. rewrite app_length, repeat_length, flat_length in M'. lia.
  - left. apply oks_ok. split; auto. lia.
Qed.

Lemma dynamicReserve_lay b L n :
  lay b L -> okb (t || nogap L) (dynamicReserve chk t BMalloc b (total L) n) (fun b' => lay b' L /\ n <= length b').
Proof.
  intros H. destruct (nogap L) eqn:G.
  { left. destruct (nogap_holds H G) as (vs & Hv & <- & B).
    eapply oks_mono; [apply (BufferManipProofs.dynamicReserve_ok chk (kind := BMalloc) (n := n) Hv); left; auto|].
    intros b' [Hb Lb]. split; auto. destruct (Nat.ltb_spec (length b) n); lia. }
  rewrite orb_false_r. pose proof (lay_cap H) as C. unfold dynamicReserve, capacity. rewrite check_ok by auto. cbn [bind].
  destruct (Nat.ltb_spec (length b) n).
  - unfold setCapacity. rewrite check_ok by auto. cbn [bind]. destruct H as [k M].
    rewrite <- (flat_length L).
    eapply okb_mono; [eapply reallocate_lay; eauto using flat_gap_free; rewrite flat_length; lia|].
    intros b' M'. split; [eexists; exact M'|]. apply mem_length in M'. rewrite app_length, repeat_length, flat_length in M'. lia.
  - left. apply oks_ok. split; auto.
Qed.

(** Nothing is stored: reallocating never faults. *)
Lemma reserve_empty b n k : mem b (repeat LN k) ->
  oks (reserve chk t BMalloc b 0 n) (fun b' => mem b' (repeat LN (Nat.max k n))).
Proof.
  intros M. pose proof (mem_length M) as E. len.
  assert (H : holds t b []) by (exists k; exact M).
  eapply oks_mono; [exact (@BufferManipProofs.reserve_ok V chk t BMalloc b [] n H (or_introl eq_refl))|].
  intros b' [K Lb]. apply holds_mem in K. simpl in K. rewrite Nat.sub_0_r, Lb, E in K. exact K.
Qed.

(** Shifting the rows [T] past a gap of [inc] slots that follows them. *)
Lemma rows_up T : forall b p s inc fn,
  mem b (p ++ flat T ++ repeat LN inc ++ s) ->
  (forall k r, nth_error T k = Some r -> forall b,
     fn k b = ArrayManip.uninitializedShiftUp t b (length p + total (firstn k T)) (length (fst r)) inc) ->
  oks (for_down (length T) fn b) (fun b' => mem b' (p ++ repeat LN inc ++ flat T ++ s)).
Proof.
  induction T as [|[r k] T IH] using rev_ind; intros b p s inc fn M F.
  - simpl in *. apply oks_ok. exact M.
  - rewrite app_length, Nat.add_comm. simpl length. cbn [for_down plus].
    rewrite (F (length T) (r, k)); [|rewrite nth_error_app2, Nat.sub_diag by lia; reflexivity].
    rewrite firstn_app_exact by auto.
    eapply oks_bind.
    + eapply uninitializedShiftUp_ok with (p := p ++ flat T) (vs := map f r) (s := repeat LN k ++ s) (amount := inc).
      * eapply mem_cast; [exact M|]. rewrite flat_app. simpl. unfold cells. simpl fst; simpl snd. lapp.
        do 3 f_equal. rewrite !app_assoc, <- !repeat_app_add. f_equal. f_equal. lia.
      * rewrite app_length, flat_length. reflexivity.
      * simpl. rewrite map_length. auto.
    + intros b1 M1. eapply oks_mono.
      * eapply IH with (p := p) (s := cells (r, k) ++ s) (inc := inc).
        -- eapply mem_cast; [exact M1|]. unfold cells. simpl fst; simpl snd. lapp. auto.
        -- intros j r' N b0. assert (j < length T) by (apply nth_error_Some; congruence).
           rewrite (F j r') by (rewrite nth_error_app1; auto).
           rewrite firstn_app. replace (j - length T) with 0 by lia. simpl. rewrite app_nil_r. auto.
      * intros b2 M2. eapply mem_cast; [exact M2|]. rewrite flat_app. simpl. lapp. auto.
Qed.

(** Shifting the rows [T] down over a gap of [dec] slots that precedes them. *)
Lemma rows_down T : forall b p s dec i fn,
  mem b (p ++ repeat LN dec ++ flat T ++ s) ->
  (forall k r, nth_error T k = Some r -> forall b,
     fn (i + k) b = ArrayManip.uninitializedShiftDown t b (length p + dec + total (firstn k T)) (length (fst r)) dec) ->
  oks (for_up (length T) fn i b) (fun b' => mem b' (p ++ flat T ++ repeat LN dec ++ s)).
Proof.
  induction T as [|[r k] T IH]; intros b p s dec i fn M F.
  - simpl in *. apply oks_ok. exact M.
  - cbn [for_up length]. pose proof (F 0 (r, k) eq_refl b) as F0. rewrite Nat.add_0_r in F0. rewrite F0.
    eapply oks_bind.
    + eapply uninitializedShiftDown_ok with (p := p) (vs := map f r) (s := repeat LN k ++ flat T ++ s) (amount := dec).
      * eapply mem_cast; [exact M|]. simpl. unfold cells at 1. simpl fst; simpl snd. lapp. auto.
      * simpl. lia.
      * simpl. rewrite map_length. auto.
    + intros b1 M1. eapply oks_mono.
      * eapply IH with (p := p ++ cells (r, k)) (s := s) (dec := dec).
        -- eapply mem_cast; [exact M1|]. unfold cells. simpl fst; simpl snd. lapp.
           do 2 f_equal. rewrite !app_assoc, <- !repeat_app_add. do 3 f_equal. lia.
        -- intros j r' N b0. rewrite <- (Nat.add_assoc i 1 j). rewrite (F (1 + j) r') by auto.
           f_equal. rewrite app_length, cells_length. simpl. lia.
      * intros b2 M2. eapply mem_cast; [exact M2|]. simpl. lapp. auto.
Qed.

(** Destroying the elements of the rows [T]. *)
Lemma rows_destroy T : forall b p s i fn,
  mem b (p ++ flat T ++ s) ->
  (forall k r, nth_error T k = Some r -> forall b,
     fn (i + k) b = ArrayManip.destroy t b (length p + total (firstn k T)) (length (fst r))) ->
  oks (for_up (length T) fn i b) (fun b' => mem b' (p ++ repeat LN (total T) ++ s)).
Proof.
  induction T as [|[r k] T IH]; intros b p s i fn M F.
  - simpl in *. apply oks_ok. exact M.
  - cbn [for_up length]. pose proof (F 0 (r, k) eq_refl b) as F0. rewrite Nat.add_0_r in F0. rewrite F0.
    eapply oks_bind.
    + eapply destroy_ok with (p := p) (m := LVs (map f r)) (s := repeat LN k ++ flat T ++ s); auto.
      * eapply mem_cast; [exact M|]. simpl. unfold cells at 1. simpl fst; simpl snd. lapp. auto.
      * simpl. len.
    + intros b1 M1. eapply oks_mono.
      * eapply IH with (p := p ++ repeat LN (length r + k)) (s := s).
        -- eapply mem_cast; [exact M1|]. simpl. lapp. f_equal. rewrite !app_assoc, <- !repeat_app_add. auto.
        -- intros j r' N b0. rewrite <- (Nat.add_assoc i 1 j). rewrite (F (1 + j) r') by auto.
           f_equal. rewrite app_length, repeat_length. simpl. unfold wid. simpl. lia.
      * intros b2 M2. eapply mem_cast; [exact M2|]. simpl. unfold wid. simpl. lapp.
        rewrite !app_assoc, <- (app_assoc p), <- repeat_app_add. auto.
Qed.

End Layout.
