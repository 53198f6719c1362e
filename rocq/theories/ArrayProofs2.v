(** Histories of Array calls. *)
From Coq Require Import List Arith ZArith Lia Bool Permutation.
From Verif Require Import Base BaseProofs Mem MemProofs ArrayManipProofs BufferManipProofs.
From Verif Require Import Indexing IndexingSpec IndexingProofs IndexingProofs2 IndexingProofs3 Array ArraySpec ArrayProofs.
From Verif Require ArrayManip BufferManip.
Import ListNotations.
Set Implicit Arguments.
Unset Strict Implicit.

Lemma upd_firstn {A} (l : list A) i x : i < length l -> upd l i x = firstn i l ++ [x] ++ skipn (S i) l.
Proof. revert i; induction l; intros [|i] H; simpl in *; auto; try lia. f_equal. apply IHl. lia. Qed.

Lemma inside_valid dims idx : inside dims idx = true <-> valid_index dims idx.
Proof.
  revert idx; induction dims as [|d dims IH]; intros [|i idx]; simpl; split; intros H; auto;
    try discriminate; try (inversion H; fail); try constructor.
  - apply andb_true_iff in H. destruct H as [H _]. lia.
  - apply andb_true_iff in H. destruct H as [_ H]. apply IH; auto.
  - inversion H; subst. apply andb_true_iff. split; [lia|]. apply IH; auto.
Qed.

Lemma set_ext_length dims p : fst p < length dims -> length (set_ext dims p) = length dims.
Proof.
  intros H. unfold set_ext. rewrite !app_length, firstn_length, skipn_length. cbn [length]. lia.
Qed.

Lemma set_dims_ok ps : forall dims, Forall (fun p => fst p < length dims) ps ->
  forallb (fun p => 0 <=? snd p)%Z ps = true ->
  set_dims dims ps = Ok (fold_left set_ext ps dims).
Proof.
  induction ps as [|[i d] ps IH]; intros dims F H; simpl in *; auto.
  apply andb_true_iff in H. destruct H as [H1 H2]. inversion F; subst. simpl in *.
  rewrite error_if_ok by lia. simpl. rewrite <- IH; auto.
  - unfold set_ext. simpl. rewrite upd_firstn; auto.
  - eapply Forall_impl; [|eassumption]. intros p Hp. cbn beta in *.
    rewrite set_ext_length; auto.
Qed.

Lemma set_dims_abort ps : forall dims,
  forallb (fun p => 0 <=? snd p)%Z ps = false -> set_dims dims ps = Abort.
Proof.
  induction ps as [|[i d] ps IH]; intros dims H; simpl in *; [discriminate|].
  destruct (Z.leb_spec 0 d); simpl in *.
  - rewrite error_if_ok by lia. simpl. auto.
  - destruct (Z.ltb_spec d 0); [reflexivity|lia].
Qed.


Lemma fold_set_ext_length ps : forall dims, Forall (fun p => fst p < length dims) ps ->
  length (fold_left set_ext ps dims) = length dims.
Proof.
  induction ps as [|p ps IH]; intros dims F; simpl; auto. inversion F; subst.
  rewrite IH; rewrite set_ext_length; auto.
Qed.

Lemma set_all ds : forall pre dims, length dims = length ds ->
  fold_left set_ext (combine (seq (length pre) (length ds)) ds) (pre ++ dims) = pre ++ map Z.to_nat ds.
Proof.
  induction ds as [|d ds IH]; intros pre [|x dims] L; try discriminate; auto.
  simpl. unfold set_ext at 2. cbn [fst snd]. rewrite firstn_app_exact by auto.
  replace (skipn (S (length pre)) (pre ++ x :: dims)) with dims.
  - specialize (IH (pre ++ [Z.to_nat d]) dims). rewrite app_length in IH. simpl in IH.
    replace (length pre + 1) with (S (length pre)) in IH by lia.
    rewrite <- app_assoc in IH. simpl in IH. simpl app. rewrite IH by (simpl in L; lia). rewrite <- app_assoc. auto.
  - change (x :: dims) with ([x] ++ dims). rewrite app_assoc. symmetry. apply skipn_app_exact. len.
Qed.

Section Hist.
Variable V : Type.
Variable chk triv : bool.
Variable kind : BufferManip.bkind.
Variable perm : list nat.
Variable dflt : V.
Hypothesis P : is_permutation perm (length perm).
Hypothesis NZ : 0 < length perm.
Notation NDIM := (length perm).
Notation array := (array V).
Notation holds := (@holds V triv).
Notation arr_ok := (@arr_ok V triv perm).

Lemma empty_holds : holds (BufferManip.empty_buf V kind) [].
Proof.
  unfold BufferManip.empty_buf. destruct kind as [|n].
  - exists 0. constructor.
  - exists n. apply mem_repeat_raw.
Qed.

Lemma new_ok : arr_ok (new_array V kind perm) [].
Proof.
  unfold arr_ok, new_array. cbn. rewrite repeat_length. repeat split; auto.
  - symmetry. apply prod_zero. destruct NDIM; [lia|]. simpl. auto.
  - apply empty_holds.
Qed.

Lemma dtor_ok a vs : arr_ok a vs -> dtor chk triv kind a = Ok tt.
Proof.
  intros A. unfold dtor. rewrite (size_ok A). destruct A as (_ & _ & _ & _ & H).
  destruct (free_ok chk kind H) as (b & E & _). rewrite E. auto.
Qed.

Lemma holds_storage b dims st r vs : holds b vs -> storage triv (mkArray dims st r b) vs.
Proof.
  intros [k M]. apply mem_app_inv in M. destruct M as (b1 & b2 & E & M1 & M2). exists b2. cbn. rewrite E. split.
  - f_equal. clear -M1. revert b1 M1; induction vs; intros b1 M1; inversion M1; subst; auto.
    simpl in *. subst. f_equal. auto.
  - intros T. clear -M2 T. revert b2 M2; induction k; intros b2 M2; inversion M2; subst; constructor; auto.
    simpl in *. match goal with H : _ \/ _ |- _ => destruct H; [discriminate|auto] end.
Qed.

Lemma arr_storage a vs : arr_ok a vs -> storage triv a vs.
Proof. intros (_ & _ & _ & _ & H). destruct a. apply holds_storage. exact H. Qed.

Lemma resize_shape a vs dims : kind = BufferManip.BMalloc -> arr_ok a vs -> length dims = NDIM ->
  oks (b <- BufferManip.resize chk triv kind (a_buf a) (size a) (multiplyAll dims) dflt ;;
       Ok (set_shape perm a dims b))
      (fun a' => a_dims a' = dims /\ a_rix a' = a_rix a /\ arr_ok a' (list_resize vs (prod dims) dflt)).
Proof.
  intros K A Ld. rewrite (size_ok A). destruct A as (L & S & R & LV & H). rewrite multiplyAll_prod.
  eapply oks_bind; [apply resize_ok; eauto; left; auto|]. intros b [Hb Lb]. apply oks_ok.
  repeat split; auto. cbn. apply list_resize_length.
Qed.

Lemma set_valid a vs idx v : arr_ok a vs -> valid_index (a_dims a) idx ->
  oks (set_ chk triv perm a idx v)
      (fun a' => arr_ok a' (upd vs (slotn perm (a_dims a) idx) v) /\ a_dims a' = a_dims a /\ a_rix a' = a_rix a).
Proof.
  intros A I. pose proof A as (L & S & R & Lv & H).
  destruct (call_slot chk P NZ A I) as [C Lt].
  unfold set_. rewrite C. cbn [bind]. rewrite to_ix_nat. cbn [bind].
  destruct (split_nth vs Lt) as (x & y & z & -> & Lx).
  destruct H as [k M].
  assert (M' : mem triv (a_buf a) (map (@LV V) x ++ LV y :: (map (@LV V) z ++ repeat LN k))).
  { eapply mem_cast; [exact M|]. rewrite map_app. simpl. rewrite <- app_assoc. auto. }
  eapply oks_bind; [eapply assign_ok; [exact M'|len|discriminate]|].
  intros b Mb. apply oks_ok. split; [|auto].
  assert (E : upd (x ++ y :: z) (slotn perm (a_dims a) idx) v = x ++ v :: z).
  { rewrite <- Lx. clear. induction x; simpl; auto. f_equal; auto. }
  rewrite E. unfold arr_ok. cbn. repeat split; auto.
  - transitivity (length (x ++ y :: z)); [len|exact Lv].
  - exists k. eapply mem_cast; [exact Mb|]. rewrite map_app. simpl. rewrite <- app_assoc. auto.
Qed.

(** One N-dimensional call. *)
Lemma nstep_ok c a vs dims' r' : kind = BufferManip.BMalloc -> arr_ok a vs -> static_ok NDIM c ->
  extents c (a_dims a, a_rix a) = Some (dims', r') ->
  oks (nstep chk triv kind perm dflt c a)
      (fun a' => (exists vs', arr_ok a' vs') /\ a_dims a' = dims' /\ a_rix a' = r').
Proof.
  intros K A SO X. pose proof A as (L & S & R & LV & H).
  destruct c; cbn [nstep extents] in *.
  - (* resize *)
    destruct ((length dims =? length (a_dims a)) && forallb _ dims) eqn:B; [|discriminate].
    injection X as <- <-. apply andb_true_iff in B. destruct B as [B1 B2]. apply Nat.eqb_eq in B1.
    unfold resize_dims. rewrite error_if_ok by (rewrite B1, L, Nat.eqb_refl; auto). cbn [bind].
    rewrite set_dims_ok.
    + replace (fold_left set_ext (combine (seq 0 NDIM) dims) (a_dims a)) with (map Z.to_nat dims).
      * cbn [bind]. eapply oks_mono; [eapply resize_shape; eauto; len|].
        intros a' (E1 & E2 & E3). eauto.
      * rewrite <- L, <- B1. symmetry. apply (@set_all dims [] (a_dims a)). auto.
    + apply Forall_forall. intros [i d] Hin. apply in_combine_l in Hin. apply in_seq in Hin. cbn. lia.
    + apply forallb_forall. intros [i d] Hin. apply in_combine_r in Hin.
      rewrite forallb_forall in B2. apply (B2 d Hin).
  - destruct (forallb _ pairs) eqn:B; [|discriminate]. injection X as <- <-.
    unfold resizeDimension. cbn in SO. rewrite <- L in SO. rewrite set_dims_ok by auto. cbn [bind].
    eapply oks_mono; [eapply resize_shape; eauto; rewrite fold_set_ext_length; auto|].
    intros a' (E1 & E2 & E3). eauto.
  - destruct (Z.leb_spec 0 n); [|discriminate]. injection X as <- <-.
    destruct (perm_split P R) as (po & pi & E & N1 & N2).
    replace n with (Z.of_nat (Z.to_nat n)) at 1 by lia.
    eapply oks_mono; [eapply rdd_ok; eauto; left; auto|]. intros a' (E1 & E2 & E3 & _).
    split; [eauto|]. split; auto. rewrite E1. unfold set_ext. cbn. apply upd_firstn. lia.
  - destruct (Z.leb_spec 0 n); [|discriminate]. injection X as <- <-.
    destruct (perm_split P R) as (po & pi & E & N1 & N2).
    replace n with (Z.of_nat (Z.to_nat n)) at 1 by lia.
    eapply oks_mono; [eapply rdd_ok; eauto; left; auto|]. intros a' (E1 & E2 & E3 & _).
    split; [eauto|]. split; auto. rewrite E1. unfold set_ext. cbn. apply upd_firstn. lia.
  - injection X as <- <-. unfold clear. rewrite (size_ok A).
    eapply oks_bind; [apply resize_ok; eauto; left; auto|]. intros b [Hb Lb]. apply oks_ok.
    split; [|split; auto; cbn; unfold set_ext; cbn; apply upd_firstn; lia].
    exists []. unfold arr_ok, set_shape. cbn. rewrite upd_length. repeat split; auto.
    + symmetry. apply prod_zero. rewrite upd_firstn by lia. apply in_or_app. right. simpl. auto.
  - rewrite L in X. destruct ((0 <=? i)%Z && (i <? Z.of_nat NDIM)%Z)%bool eqn:B; [|discriminate].
    injection X as <- <-. apply andb_true_iff in B. destruct B as [B1 B2].
    unfold setSingleParameterResizeIndex. rewrite error_if_ok by lia. cbn [bind].
    rewrite error_if_ok by lia. cbn [bind]. apply oks_ok. split; [|auto]. exists vs.
    unfold arr_ok. cbn. repeat split; auto. lia.
  - injection X as <- <-. unfold reserve. rewrite (size_ok A).
    eapply oks_bind; [apply reserve_ok; eauto; left; auto|]. intros b [Hb Lb]. apply oks_ok.
    split; [|auto]. exists vs. unfold arr_ok. cbn. repeat split; auto.
  - destruct (inside (a_dims a) idx) eqn:I; [|discriminate]. injection X as <- <-.
    apply inside_valid in I. eapply oks_mono; [eapply set_valid; eauto|].
    intros a' (E1 & E2 & E3). eauto.
Qed.

(** With bounds checks a call the specification rejects aborts. *)
Lemma nstep_abort c a vs : chk = true -> arr_ok a vs -> static_ok NDIM c ->
  extents c (a_dims a, a_rix a) = None ->
  nstep chk triv kind perm dflt c a = Abort \/ exists idx v, c = NSet idx v /\ length idx <> NDIM.
Proof.
  intros K A SO X. pose proof A as (L & S & R & Lv & H).
  destruct c; cbn [nstep extents] in *; try discriminate.
  - left. unfold resize_dims. rewrite L in X. destruct (length dims =? NDIM) eqn:B1; [|reflexivity].
    cbn [andb] in X. cbn [negb error_if bind]. destruct (forallb _ dims) eqn:B; [discriminate|].
    rewrite set_dims_abort; [reflexivity|]. apply not_true_iff_false. intros T. apply not_true_iff_false in B. apply B.
    apply forallb_forall. intros d Hd. rewrite forallb_forall in T. apply Nat.eqb_eq in B1.
    clear -T Hd B1. revert T Hd. rewrite <- B1. clear B1. generalize 0 as j.
    induction dims as [|x dims IH]; intros j T Hd; [inversion Hd|]. destruct Hd as [-> | Hd].
    + apply (T (j, d)). simpl. auto.
    + apply (IH (Datatypes.S j)); auto. intros q Hq. apply T. simpl. auto.
  - left. destruct (forallb _ pairs) eqn:B; [discriminate|]. unfold resizeDimension.
    rewrite set_dims_abort; auto.
  - left. destruct (Z.leb_spec 0 n); [discriminate|]. unfold resizeDefaultDimension.
    destruct (Z.ltb_spec n 0); [reflexivity|lia].
  - left. destruct (Z.leb_spec 0 n); [discriminate|]. unfold resizeDefaultDimension.
    destruct (Z.ltb_spec n 0); [reflexivity|lia].
  - left. rewrite L in X. unfold setSingleParameterResizeIndex.
    destruct (Z.ltb_spec i 0); [reflexivity|]. cbn [error_if bind].
    destruct (Z.leb_spec (Z.of_nat NDIM) i); [reflexivity|]. exfalso.
    destruct (Z.leb_spec 0 i); [|lia]. destruct (Z.ltb_spec i (Z.of_nat NDIM)); [discriminate|lia].
  - destruct (inside (a_dims a) idx) eqn:I; [discriminate|].
    destruct (Nat.eq_dec (length idx) NDIM) as [E|E]; [left|right; eauto].
    unfold set_. rewrite K.
    destruct (@slice_call_checked (toSlice perm a) idx) as [_ SA]; [cbn; lia|].
    rewrite SA; auto. cbn. intros Vi. apply inside_valid in Vi. congruence.
Qed.

Lemma nrun_ok h : forall a vs dims' r', kind = BufferManip.BMalloc -> arr_ok a vs ->
  Forall (static_ok NDIM) h -> extents_after h (a_dims a, a_rix a) = Some (dims', r') ->
  oks (run (nstep chk triv kind perm dflt) h a)
      (fun a' => (exists vs', arr_ok a' vs') /\ a_dims a' = dims' /\ a_rix a' = r').
Proof.
  induction h as [|c h IH]; intros a vs dims' r' K A F X.
  - cbn in *. injection X as <- <-. apply oks_ok. eauto.
  - cbn [run]. cbn [extents_after] in X. pose proof (Forall_inv F). pose proof (Forall_inv_tail F).
    destruct (extents c (a_dims a, a_rix a)) as [[d1 r1]|] eqn:E1; [|discriminate].
    eapply oks_bind; [eapply nstep_ok; eauto|].
    intros a1 ((vs1 & A1) & <- & <-). eapply IH; eauto.
Qed.
End Hist.
