(** Insertion into and removal from one sorted row of an array of arrays, for rows of elements of a type [P]
    with a key [fv] (the value, or the column) and possibly an entry [fw] in the second buffer. *)
From Coq Require Import List Arith ZArith Lia Bool Sorting.Sorted.
From Verif Require Import Base BaseProofs Mem MemProofs ArrayManipProofs BufferManip BufferManipProofs
  Sorted SortedSpec SortedProofs SortedProofs2 SortedProofs3 AoA AoALayout AoAProofs AoAProofs2 AoS.
From Verif Require ArrayManip.
Import ListNotations.
Set Implicit Arguments.
Unset Strict Implicit.

Section Sets.
Variable P V W : Type.
Variable fv : P -> V.
Variable fw : P -> W.
Variable chk tv tw dual : bool.
Variable lt eqb : V -> V -> bool.
Hypothesis T : total_order lt eqb.
Notation kind := BMalloc.
Notation aoa := (aoa V W).
Notation X := (aoa * nat)%type.
Notation row := (list P * nat)%type.
Notation rows := (list row).
Notation pincr l := (StronglySorted (fun x y => lt (fv x) (fv y) = true) l).
Notation iok := (@iok P V W).
Notation aok := (@aok P V W fv fw tv tw dual).
Notation LVs := (map (@LV V)).
Notation LWs := (map (@LV W)).
Notation allt := (allt tv tw dual).
Implicit Types a : aoa.
Implicit Types A B L : rows.

(** The entry cell which goes with a logical element, [Q] for the cells without one. *)
Definition ent (Q : lcell W -> Prop) (o : option P) (c : lcell W) : Prop :=
  match o with Some e => c = LV (fw e) | None => Q c end.

(** The container while row [length A] is being changed: its recorded size is still that of [es], its
    capacity is [C]. *)
Definition rx (Q : lcell W -> Prop) A (es : list P) (C : nat) B
    (p s : list (lcell V)) (l : list (option P)) (x : X) : Prop :=
  exists q, p = flat fv A /\ s = repeat LN (C - length l) ++ flat fv B ++ repeat LN q /\ length l <= C /\ length es <= C /\
    iok (fst x) (A ++ (es, C - length es) :: B) /\
    (dual = true -> snd x = length p /\ exists le q', Forall2 (ent Q) l le /\
       mem tw (ents (fst x)) (flat fw A ++ le ++ repeat LN (C - length l) ++ flat fw B ++ repeat LN q')).

Lemma ent_some (Q : lcell W -> Prop) es le : Forall2 (ent Q) (map Some es) le <-> le = LWs (map fw es).
Proof.
  split.
  - revert le; induction es as [|e es IH]; simpl; intros le H; inversion H; subst; auto. simpl in *. f_equal; auto.
  - intros ->. induction es; simpl; constructor; simpl; auto.
Qed.
Lemma ent_none Q n le : Forall2 (ent Q) (repeat None n) le -> Forall Q le /\ length le = n.
Proof.
  revert le; induction n; simpl; intros le H; inversion H; subst; [split; [constructor|auto]|].
  destruct (IHn _ H4). split; [constructor; auto|simpl; auto].
Qed.
Lemma ln_repeat (le : list (lcell W)) : Forall (eq LN) le -> le = repeat LN (length le).
Proof. induction 1; simpl; congruence. Qed.

Lemma row_nth A (x : row) B : nth_error (A ++ x :: B) (length A) = Some x.
Proof. rewrite nth_error_app2, Nat.sub_diag by lia. reflexivity. Qed.
Lemma row_check a A r k B : iok a (A ++ (r, k) :: B) -> check_array chk a (length A) = Ok tt.
Proof. intros I. apply (check_array_at chk I). len. Qed.
Lemma row_size a A r k B : iok a (A ++ (r, k) :: B) -> sizeOfArray chk a (length A) = Ok (length r).
Proof. intros I. apply (sizeOf_at chk I (row_nth A (r, k) B)). Qed.
Lemma row_size_ a A r k B : iok a (A ++ (r, k) :: B) -> size_ a (length A) = Ok (length r).
Proof. intros I. apply (size_at I (row_nth A (r, k) B)). Qed.
Lemma row_capacity a A r k B : iok a (A ++ (r, k) :: B) -> capacityOfArray chk a (length A) = Ok (length r + k).
Proof. intros I. apply (capacityOf_at chk I (row_nth A (r, k) B)). Qed.
Lemma row_values a A r k B : iok a (A ++ (r, k) :: B) -> getSetValues chk a (length A) = Ok (length (flat fv A)).
Proof.
  intros I. unfold getSetValues. rewrite (row_check I). cbn [bind].
  rewrite (offset_at I) by len. rewrite firstn_app_exact, flat_length by auto. reflexivity.
Qed.

(** Both buffers around row [(r, k)]. *)
Lemma lay_row {Y} (g : P -> Y) t b A r k B : lay g t b (A ++ (r, k) :: B) ->
  exists q, mem t b (flat g A ++ map LV (map g r) ++ repeat LN k ++ flat g B ++ repeat LN q).
Proof.
  intros [q M]. exists q. eapply mem_cast; [exact M|]. rewrite flat_app. simpl. unfold cells at 1. simpl.
  rewrite <- !app_assoc. auto.
Qed.
Lemma row_lay {Y} (g : P -> Y) t b A r k B q :
  mem t b (flat g A ++ map LV (map g r) ++ repeat LN k ++ flat g B ++ repeat LN q) -> lay g t b (A ++ (r, k) :: B).
Proof.
  intros M. exists q. eapply mem_cast; [exact M|]. rewrite flat_app. simpl. unfold cells at 1. simpl.
  rewrite <- !app_assoc. auto.
Qed.

(** Recording the new size. *)
Lemma size_put a A r k B r' k' (n : nat) : iok a (A ++ (r, k) :: B) -> length r' + k' = length r + k -> n = length r' ->
  oks (put_size a (length A) n) (fun a' => iok a' (A ++ (r', k') :: B) /\ vals a' = vals a /\ ents a' = ents a).
Proof.
  intros (N & O & Z) Wd ->. unfold put_size. eapply oks_bind.
  - eapply assign_mid with (xs := sizes A) (y := length r) (ys := sizes B); [|rewrite sizes_length; reflexivity].
    eapply holds_eq; [exact Z|]. rewrite sizes_app. reflexivity.
  - intros z [Hz _]. apply oks_ok. split; [split; [|split]|split]; simpl; auto.
    + rewrite N. len.
    + eapply holds_eq; [exact O|]. rewrite !offsets_app. simpl. unfold wid. simpl. rewrite Wd. reflexivity.
    + eapply holds_eq; [exact Hz|]. rewrite sizes_app. reflexivity.
Qed.

(** The end of an operation which leaves [n] free cells behind the elements. *)
Lemma rx_done A es C B s es' n (x : X) b :
  rx (eq LN) A es C B (flat fv A) s (map Some es' ++ repeat None n) x ->
  mem tv b (flat fv A ++ LVs (map fv es') ++ repeat LN n ++ s) ->
  length es' <= C /\ vok fv fw tv tw dual (set_vals b (fst x)) (A ++ (es', C - length es') :: B).
Proof.
  intros (q & _ & -> & LC & _ & I & D) M. rewrite app_length, map_length, repeat_length in *. split; [lia|]. split; simpl.
  - apply row_lay with (q := q). eapply mem_cast; [exact M|]. do 2 f_equal.
    rewrite !app_assoc, <- repeat_app_add. do 3 f_equal. lia.
  - intros Du. destruct (D Du) as (_ & le & q' & F & Me). apply row_lay with (q := q').
    apply Forall2_app_inv_l in F. destruct F as (l1 & l2 & F1 & F2 & ->).
    apply ent_some in F1. subst l1. apply ent_none in F2. destruct F2 as [F2 Ln]. apply ln_repeat in F2. rewrite Ln in F2. rewrite F2 in Me.
    eapply mem_cast; [exact Me|]. rewrite <- !app_assoc. do 2 f_equal.
    rewrite !app_assoc, <- repeat_app_add. do 3 f_equal. lia.
Qed.

Section CB.
Variable cb : callbacks V X.

Lemma insertSet_ok_at a A es k B w e0 t C : aok a (A ++ (es, k) :: B) -> pincr es ->
  (let n := if present eqb fv es (fv w) then 0 else 1 in
   okb t (cb_inc cb n (vals a, (a, e0))) (inc_post tv fv (rx (eq LN) A es C B) es n)) ->
  (forall p' s' f1 g1 x', es = f1 ++ g1 -> Forall (fun e => lt (fv e) (fv w) = true) f1 -> Forall (fun e => lt (fv w) (fv e) = true) g1 ->
     rx (eq LN) A es C B p' s' (map Some es ++ [None]) x' ->
     oks (cb_ev cb (EInsert (length f1)) x') (rx (eq LN) A es C B p' s' (map Some (f1 ++ w :: g1)))) ->
  okb t (insertIntoSetImpl chk tv lt eqb cb a e0 (length A) (fv w))
    (fun r => snd r = negb (present eqb fv es (fv w)) /\ length (pinsert lt eqb fv w es) <= C /\
              aok (fst r) (A ++ (pinsert lt eqb fv w es, C - length (pinsert lt eqb fv w es)) :: B)).
Proof.
  intros H Ic Hinc Hev. pose proof H as [I [Ev Ee]]. unfold insertIntoSetImpl.
  rewrite (row_check I). cbn [bind]. rewrite (row_size I). cbn [bind]. rewrite (row_values I). cbn [bind].
  destruct (lay_row Ev) as [q M].
  destruct (@insert_ok_at V P X chk tv lt eqb fv T cb (rx (eq LN) A es C B) (vals a) (a, e0) (flat fv A) _ es w
              (length (flat fv A)) (length es) M Ic eq_refl eq_refl Hev) as (kk & E & K).
  rewrite E. clear E. rewrite bind_assoc.
  eapply okb_bind; [exact Hinc|]. intros r Hr. specialize (K r Hr). left.
  eapply oks_bind; [exact K|]. intros [[b x'] ok] [(p' & s' & M' & R') Ho]. cbn [fst snd] in *.
  assert (Ep : p' = flat fv A) by (destruct R' as (? & -> & _); auto). subst p'.
  pose proof R' as (q' & _ & _ & _ & LE & I' & _).
  assert (R2 : rx (eq LN) A es C B (flat fv A) s' (map Some (pinsert lt eqb fv w es) ++ repeat None 0) x')
    by (simpl; rewrite app_nil_r; exact R').
  destruct (rx_done R2 (b := b)) as [LC Vk]; [exact M'|].
  assert (I2 : iok (set_vals b (fst x')) (A ++ (es, C - length es) :: B)) by exact I'.
  rewrite (row_size_ I2). cbn [bind].
  eapply oks_bind; [eapply size_put with (r' := pinsert lt eqb fv w es) (k' := C - length (pinsert lt eqb fv w es)); [exact I2|lia|]|].
  - rewrite (pinsert_length T) by auto. subst ok. destruct (present eqb fv es (fv w)); reflexivity.
  - intros a2 (Ia & Va & Ea). apply oks_ok. cbn [fst snd]. split; auto. split; auto. split; auto.
    destruct Vk as [V1 V2]. split; [rewrite Va; exact V1|rewrite Ea; exact V2].
Qed.
Lemma insertSet_ok a A es k B w e0 t C : aok a (A ++ (es, k) :: B) -> pincr es ->
  (let n := if present eqb fv es (fv w) then 0 else 1 in
   okb t (cb_inc cb n (vals a, (a, e0))) (inc_post tv fv (rx (eq LN) A es C B) es n)) ->
  (forall p' s' f1 g1 x', es = f1 ++ g1 -> rx (eq LN) A es C B p' s' (map Some es ++ [None]) x' ->
     oks (cb_ev cb (EInsert (length f1)) x') (rx (eq LN) A es C B p' s' (map Some (f1 ++ w :: g1)))) ->
  okb t (insertIntoSetImpl chk tv lt eqb cb a e0 (length A) (fv w))
    (fun r => snd r = negb (present eqb fv es (fv w)) /\ length (pinsert lt eqb fv w es) <= C /\
              aok (fst r) (A ++ (pinsert lt eqb fv w es, C - length (pinsert lt eqb fv w es)) :: B)).
Proof. intros H Ic Hinc Hev. eapply insertSet_ok_at; eauto. Qed.

Lemma insertsSet_ok a A es k B ws e0 t C : aok a (A ++ (es, k) :: B) -> pincr es -> pincr ws ->
  (let n := absent eqb fv es ws in
   okb t (cb_inc cb n (vals a, (a, e0))) (inc_post tv fv (rx (eq LN) A es C B) es n)) ->
  (es = [] -> forall k w x p' s' f1 g, nth_error ws k = Some w -> length f1 = k -> rx (eq LN) A es C B p' s' (map Some f1 ++ None :: g) x ->
      oks (cb_ev cb (ESet k k) x) (rx (eq LN) A es C B p' s' (map Some (f1 ++ [w]) ++ g))) ->
  (forall k w nLeft f1 g1 h1 x p' s', nth_error ws k = Some w ->
      rx (eq LN) A es C B p' s' (map Some (f1 ++ g1) ++ repeat None (S nLeft) ++ map Some h1) x ->
      oks (cb_ev cb (EInsertN (S nLeft) k (length f1) (length f1 + length g1)) x)
          (rx (eq LN) A es C B p' s' (map Some f1 ++ repeat None nLeft ++ map Some (w :: g1 ++ h1)))) ->
  let es' := fold_right (pinsert lt eqb fv) es ws in
  okb t (insertsIntoSetImpl chk tv lt eqb cb a e0 (length A) (map fv ws))
    (fun r => snd r = absent eqb fv es ws /\ length es' <= C /\ aok (fst r) (A ++ (es', C - length es') :: B)).
Proof.
  intros H Ic Iw Hinc Hset Hev es'. pose proof H as [I [Ev Ee]]. unfold insertsIntoSetImpl.
  rewrite (row_check I). cbn [bind]. rewrite (row_size I). cbn [bind]. rewrite (row_values I). cbn [bind].
  destruct (lay_row Ev) as [q M].
  destruct (@inserts_ok V P X chk tv lt eqb fv T cb (rx (eq LN) A es C B) (vals a) (a, e0) (flat fv A) _ es ws
              (length (flat fv A)) (length es) M Ic Iw eq_refl eq_refl Hset Hev) as (kk & E & K).
  rewrite E. clear E. rewrite bind_assoc.
  eapply okb_bind; [exact Hinc|]. intros r Hr. specialize (K r Hr). left.
  eapply oks_bind; [exact K|]. intros [[b x'] ok] [(p' & s' & M' & R') Ho]. cbn [fst snd] in *.
  assert (Ep : p' = flat fv A) by (destruct R' as (? & -> & _); auto). subst p'.
  pose proof R' as (q' & _ & _ & _ & LE & I' & _).
  assert (R2 : rx (eq LN) A es C B (flat fv A) s' (map Some es' ++ repeat None 0) x')
    by (simpl; rewrite app_nil_r; exact R').
  destruct (rx_done R2 (b := b)) as [LC Vk]; [exact M'|].
  assert (I2 : iok (set_vals b (fst x')) (A ++ (es, C - length es) :: B)) by exact I'.
  rewrite (row_size_ I2). cbn [bind].
  eapply oks_bind; [eapply size_put with (r' := es') (k' := C - length es'); [exact I2|lia|]|].
  - unfold es'. rewrite (pinserts_length T) by auto. congruence.
  - intros a2 (Ia & Va & Ea). apply oks_ok. cbn [fst snd]. split; auto. split; auto. split; auto.
    destruct Vk as [V1 V2]. split; [rewrite Va; exact V1|rewrite Ea; exact V2].
Qed.

(** Before a removal the state is described by [rx] already. *)
Lemma rx_start Q a A es k B e0 : aok a (A ++ (es, k) :: B) -> (dual = true -> e0 = length (flat fv A)) ->
  exists q, let s := repeat LN k ++ flat fv B ++ repeat LN q in
    mem tv (vals a) (flat fv A ++ LVs (map fv es) ++ s) /\ rx Q A es (length es + k) B (flat fv A) s (map Some es) (a, e0).
Proof.
  intros [I [Ev Ee]] HE. destruct (lay_row Ev) as [q M]. exists q. split; [exact M|].
  exists q. rewrite map_length. replace (length es + k - length es) with k by lia.
  split; auto. split; auto. split; [lia|]. split; [lia|]. split; [exact I|].
  intros D. split; [cbn; auto|]. destruct (lay_row (Ee D)) as [q' Me]. exists (LWs (map fw es)), q'. split; [apply ent_some; auto|exact Me].
Qed.

Lemma removeSet_ok a A es k B v e0 : aok a (A ++ (es, k) :: B) -> pincr es -> (dual = true -> e0 = length (flat fv A)) ->
  (forall p s f1 e g1 x', es = f1 ++ e :: g1 -> fv e = v -> rx (eq LN) A es (length es + k) B p s (map Some es) x' ->
     oks (cb_ev cb (ERemove (length f1)) x') (rx (eq LN) A es (length es + k) B p s (map Some (f1 ++ g1) ++ [None]))) ->
  let es' := pdiff eqb fv es [v] in
  oks (removeFromSetImpl chk tv lt eqb cb a e0 (length A) v)
    (fun r => snd r = present eqb fv es v /\ length es = length es' + (if snd r then 1 else 0) /\
              aok (fst r) (A ++ (es', length es + k - length es') :: B)).
Proof.
  intros H Ic HE Hev es'. pose proof H as [I _]. unfold removeFromSetImpl.
  rewrite (row_check I). cbn [bind]. rewrite (row_size I). cbn [bind]. rewrite (row_values I). cbn [bind].
  destruct (rx_start (eq LN) H HE) as (q & M & R).
  eapply oks_bind.
  - eapply (@remove_ok V P X chk tv lt eqb fv T cb (rx (eq LN) A es (length es + k) B) (vals a) (a, e0) _ _ es v); eauto.
  - intros [[b x'] ok] (M' & R' & Ho & LL). cbn [fst snd] in *.
    destruct (rx_done R' M') as [LC Vk]. pose proof R' as (q' & _ & _ & _ & LE & I' & _).
    assert (I2 : iok (set_vals b (fst x')) (A ++ (es, length es + k - length es) :: B)) by exact I'.
    rewrite (row_size_ I2). cbn [bind]. subst ok.
    rewrite sub_ix_ok by lia. cbn [bind].
    eapply oks_bind; [eapply size_put with (r' := es') (k' := length es + k - length es'); [exact I2|fold es' in LL; lia|fold es' in LL; lia]|].
    intros a2 (Ia & Va & Ea). apply oks_ok. cbn [fst snd]. split; auto. split; auto. split; auto.
    destruct Vk as [V1 V2]. split; [rewrite Va; exact V1|rewrite Ea; exact V2].
Qed.

(** Removing a range leaves [snd r] entries behind, still to be destroyed. *)
Lemma removesSet_ok a A es k B vs e0 : aok a (A ++ (es, k) :: B) -> pincr es -> StronglySorted (fun x y => lt x y = true) vs ->
  (dual = true -> e0 = length (flat fv A)) ->
  (forall p s f1 g1 e n x', rx live A es (length es + k) B p s (map Some f1 ++ gaps P n ++ map Some (e :: g1)) x' ->
     forall g2 g3, g1 = g2 ++ g3 ->
     oks (cb_ev cb (ERemoveN (S n) (length f1 + n) (length f1 + n + 1 + length g2)) x')
         (rx live A es (length es + k) B p s (map Some (f1 ++ g2) ++ gaps P (S n) ++ map Some g3))) ->
  let es' := pdiff eqb fv es vs in
  oks (removesFromSetImpl chk tv lt eqb cb a e0 (length A) vs)
    (fun r => length es = length es' + snd r /\
       iok (fst r) (A ++ (es', length es + k - length es') :: B) /\
       lay fv tv (vals (fst r)) (A ++ (es', length es + k - length es') :: B) /\
       (dual = true -> exists g q, Forall live g /\ length g = snd r /\
          mem tw (ents (fst r)) (flat fw A ++ LWs (map fw es') ++ g ++ repeat LN k ++ flat fw B ++ repeat LN q))).
Proof.
  intros H Ic Iv HE Hev es'. pose proof H as [I _]. unfold removesFromSetImpl.
  rewrite (row_check I). cbn [bind]. rewrite (row_size I). cbn [bind]. rewrite (row_values I). cbn [bind].
  destruct (rx_start live H HE) as (q & M & R).
  eapply oks_bind.
  - eapply (@removes_ok V P X chk tv lt eqb fv T cb (rx live A es (length es + k) B) (vals a) (a, e0) _ _ es vs); eauto.
  - intros [[b x'] n] (M' & R' & LL). cbn [fst snd] in *. fold es' in M', R', LL.
    pose proof R' as (q' & _ & Es & LC & LE & I' & D).
    assert (I2 : iok (set_vals b (fst x')) (A ++ (es, length es + k - length es) :: B)) by exact I'.
    rewrite (row_size_ I2). cbn [bind].
    rewrite sub_ix_ok by lia. cbn [bind].
    eapply oks_bind; [eapply size_put with (r' := es') (k' := length es + k - length es'); [exact I2|lia|lia]|].
    intros a2 (Ia & Va & Ea). apply oks_ok. cbn [fst snd]. split; auto. split; auto. split.
    + rewrite Va. simpl. apply row_lay with (q := q). eapply mem_cast; [exact M'|]. do 2 f_equal.
      rewrite !app_assoc, <- repeat_app_add. do 3 f_equal. lia.
    + intros Du. destruct (D Du) as (_ & le & q2 & F & Me). rewrite Ea. simpl.
      apply Forall2_app_inv_l in F. destruct F as (l1 & l2 & F1 & F2 & ->).
      apply ent_some in F1. subst l1. apply ent_none in F2. destruct F2 as [F2 Ln].
      exists l2, q2. split; auto. split; auto. eapply mem_cast; [exact Me|]. rewrite <- !app_assoc. do 3 f_equal.
      unfold gaps. rewrite app_length, map_length, repeat_length. f_equal. f_equal. lia.
Qed.
End CB.

(** incrementSize of the containers which grow their rows. *)
Lemma grow_inc_ok (newCap : nat -> nat) a A es k B n e0 : aok a (A ++ (es, k) :: B) ->
  (dual = true -> e0 = length (flat fv A)) ->
  (length es + k < length es + n -> length es + n <= newCap (length es + n)) ->
  let C := if length es + k <? length es + n then newCap (length es + n) else length es + k in
  okb (allt || nogap (A ++ (es, k) :: B)) (cb_inc (grow_cb V W chk tv tw dual kind newCap (length A)) n (vals a, (a, e0)))
      (inc_post tv fv (rx (eq LN) A es C B) es n).
Proof.
  intros H HE Hc C. pose proof H as [I _]. cbn [cb_inc grow_cb].
  assert (Ea : set_vals (vals a) a = a) by (destruct a; reflexivity). rewrite Ea.
  rewrite (row_size I). cbn [bind]. rewrite (row_capacity I). cbn [bind].
  assert (G : forall a', aok a' (A ++ (es, C - length es) :: B) -> length es + n <= C ->
     oks (p <- getSetValues chk a' (length A) ;; Ok (vals a', (a', e0), p)) (inc_post tv fv (rx (eq LN) A es C B) es n)).
  { intros a' [I' [Ev Ee]] LC. rewrite (row_values I'). cbn [bind]. apply oks_ok. cbn.
    destruct (lay_row Ev) as [q M]. exists (flat fv A), (repeat LN (C - length es - n) ++ flat fv B ++ repeat LN q).
    split; auto. split.
    - eapply mem_cast; [exact M|]. do 2 f_equal. rewrite !app_assoc, <- repeat_app_add. do 3 f_equal. lia.
    - exists q. rewrite app_length, map_length, repeat_length.
      replace (C - (length es + n)) with (C - length es - n) by lia.
      split; auto. split; auto. split; [lia|]. split; [lia|]. split; [exact I'|].
      intros D. split; [cbn; auto|]. destruct (lay_row (Ee D)) as [q' Me]. exists (LWs (map fw es) ++ repeat LN n), q'. split.
      + apply Forall2_app; [apply ent_some; auto|]. clear. induction n; simpl; constructor; simpl; auto.
      + eapply mem_cast; [exact Me|]. rewrite <- !app_assoc. do 2 f_equal.
        rewrite !app_assoc, <- repeat_app_add. do 3 f_equal. lia. }
  destruct (Nat.ltb_spec (length es + k) (length es + n)) as [Lt|Ge].
  - eapply okb_bind; [eapply setCapacity_ok; [exact H|reflexivity]|]. intros a' H'. left. specialize (Hc Lt).
    apply G; [|unfold C; lia]. rewrite firstn_all2 in H' by lia. exact H'.
  - left. apply G; [|unfold C; lia]. unfold C. replace (length es + k - length es) with k by lia. exact H.
Qed.
End Sets.
