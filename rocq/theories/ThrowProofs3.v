(** Exceptions in the one dimensional interface, in copies, and errors thrown by the error handler. *)
From Coq Require Import List Arith ZArith Lia Bool.
From Verif Require Import Base BaseProofs Mem MemProofs BufferManip BufferManipProofs Indexing IndexingSpec IndexingProofs
  IndexingProofs2 IndexingProofs3 Array ArraySpec ArrayProofs ArrayProofs2 ArrayProofs3 Throw ThrowSpec ThrowProofs ThrowProofs2.
From Verif Require ArrayManip ArrayManipProofs.
Import ListNotations.
Set Implicit Arguments.

Section X1.
Variable V : Type.
Variable chk : bool.
Variable dflt : V.
Notation LVs := (map (@LV V)).
Notation arr_ok := (@arr_ok V false [0]).
Notation holds := (@BufferManipProofs.holds V false).

(** [after] with the representation kept for the calls that follow *)
Definition after' (d : damage) (t : tarray V) (l : list V) : Prop :=
  match d with
  | Intact => exists a, t = as_left a /\ arr_ok a l
  | Leaks => t_dtor chk false BMalloc t = Fault FLeak
  | Broken => t_dtor chk false BMalloc t = Fault FDestroy
  end.

Lemma dtor_left kind perm (a : array V) l : ArrayProofs.arr_ok false perm a l -> t_dtor chk false kind (as_left a) = Ok tt.
Proof.
  intros A. assert (E : t_size (as_left a) = Z.of_nat (size a)).
  { unfold t_size, as_left. cbn. rewrite z_prod. unfold size. rewrite multiplyAll_prod. auto. }
  rewrite (t_dtor_eq chk _ _ _ E). exact (@dtor_ok V chk false kind perm a l A).
Qed.

Lemma after_after d t l : after' d t l -> after chk d t l.
Proof.
  destruct d; auto. intros (a & -> & A). split; [eapply dtor_left; eauto|]. exists a. split; auto. split.
  - eapply arr_shows. exact A.
  - eapply arr_storage. exact A.
Qed.

Lemma resume_left (a : array V) : resume (as_left a) = a.
Proof.
  destruct a. unfold resume, as_left. cbn. rewrite map_map. f_equal.
  rewrite <- (map_id a_dims) at 2. apply map_ext. apply Nat2Z.id.
Qed.

Lemma size1 (a : array V) b (l : list V) : a_dims a = [length l] -> t_size (left_buf a b) = Z.of_nat (length l).
Proof. intros D. unfold t_size, left_buf. cbn. rewrite D. cbn. lia. Qed.

Lemma x_vstep_spec c a l l' n : arr_ok a l -> vector dflt c l = Some l' ->
  xspec (x_vstep chk false BMalloc [0] dflt n c a)
    (fun n' a' => n = n' + cost c l /\ vstep chk false BMalloc [0] dflt c a = Ok a')
    (fun w t => w = Element /\ n < cost c l /\ after' (damage_of c l n) t l).
Proof.
  intros A X. pose proof (size_ok A) as SZ. pose proof A as A0. apply arr1 in A0. destruct A0 as (D & S & R & H).
  pose proof (holds_cap H) as HC.
  assert (IN : forall b, holds b l -> exists a2, left_buf a b = as_left a2 /\ arr_ok a2 l).
  { intros b Hb. exists (mkArray (a_dims a) (a_strides a) (a_rix a) b). split; [reflexivity|]. apply arr1. cbn. auto. }
  assert (RDD : forall m v, (0 <= m)%Z ->
    xspec (x_resizeDefaultDimension chk false BMalloc [0] n a m v)
      (fun n' a' => n = n' + (Z.to_nat m - length l) /\ resizeDefaultDimension chk false BMalloc [0] a m v = Ok a')
      (fun w t => w = Element /\ n < Z.to_nat m - length l /\ t_dtor chk false BMalloc t = Fault FDestroy)).
  { intros m v Hm. pose proof (@x_rdd_spec V chk [0] perm1 nz1 a l (Z.to_nat m) v n A) as Y.
    rewrite Z2Nat.id in Y by auto. rewrite D, R in Y. cbn [upd] in Y.
    replace (prod [Z.to_nat m]) with (Z.to_nat m) in Y by (simpl; lia).
    eapply xspec_mono; [exact Y| |]; cbn beta; intuition auto. }
  destruct c; cbn [x_vstep vstep vector cost damage_of] in *.
  - unfold x_emplace_back, emplace_back. rewrite SZ. eapply xspec_bind.
    + apply xspec_left. eapply xspec_mono; [apply (x_emplaceBack_spec chk v n H); left; auto| |].
      * intros n' b Y. exact Y.
      * intros w t (-> & -> & Ht). split; auto. split; [lia|]. cbn. apply IN. auto.
    + intros n' b (-> & E). cbn [xspec]. rewrite E. auto.
  - destruct ((0 <=? pos)%Z && (pos <=? Z.of_nat (length l))%Z)%bool eqn:B; [|discriminate].
    apply andb_true_iff in B. destruct B as [B1 B2].
    unfold x_emplace_at, emplace. rewrite SZ.
    set (k := Z.to_nat pos) in *. assert (Hk : k <= length l) by lia.
    destruct (split_at l Hk) as (xs & ys & -> & Lk).
    replace pos with (Z.of_nat (length xs)) by lia.
    eapply xspec_bind.
    + apply xspec_left. eapply xspec_mono; [apply (x_emplace_spec chk xs ys v n H); left; auto| |].
      * intros n' b Y. exact Y.
      * intros w t (-> & -> & k' & Mt). split; auto. split; [lia|].
        rewrite app_length. destruct (Z.eqb_spec (Z.of_nat (length xs)) (Z.of_nat (length xs + length ys))) as [Eq|Ne].
        -- assert (ys = []) by (destruct ys; auto; simpl in Eq; lia). subst ys. cbn. apply IN. rewrite app_nil_r.
           exists (Datatypes.S k'). exact Mt.
        -- cbn. rewrite (t_dtor_eq chk _ _ _ (size1 a t (xs ++ ys) D)). cbn [left_buf t_buf].
           rewrite (@free_broken V chk BMalloc t (LVs xs) (LVs ys ++ repeat LN k') (length (xs ++ ys)) Mt); [reflexivity|apply live_LVs|].
           apply mem_length in Mt. rewrite Mt. rewrite !app_length, !map_length. cbn [length]. rewrite app_length, map_length. lia.
    + intros n' b (-> & E). cbn [xspec]. rewrite E. auto.
  - destruct ((0 <=? pos)%Z && (pos <=? Z.of_nat (length l))%Z)%bool eqn:B; [|discriminate].
    apply andb_true_iff in B. destruct B as [B1 B2].
    unfold x_insert_at, insert. rewrite SZ.
    set (k := Z.to_nat pos) in *. assert (Hk : k <= length l) by lia.
    destruct (split_at l Hk) as (xs & ys & -> & Lk).
    replace pos with (Z.of_nat (length xs)) by lia.
    eapply xspec_bind.
    + apply xspec_left. eapply xspec_mono; [apply (x_insert_spec chk xs ys vs n H); left; auto| |].
      * intros n' b Y. exact Y.
      * intros w t (-> & Ln & k' & Mt). split; auto. split; [exact Ln|].
        replace (length vs - n) with (Datatypes.S (length vs - n - 1)) in Mt by lia. simpl repeat in Mt.
        assert (Lf : length (firstn n vs) = n) by (rewrite firstn_length; lia).
        pose proof (mem_length Mt) as LM.
        repeat (rewrite app_length in LM || rewrite map_length in LM || rewrite repeat_length in LM || (progress cbn [length] in LM)).
        rewrite Lf in LM.
        rewrite app_length.
        destruct (Z.ltb_spec (Z.of_nat (length xs) + Z.of_nat n) (Z.of_nat (length xs + length ys))) as [Lt|Ge].
        -- cbn. rewrite (t_dtor_eq chk _ _ _ (size1 a t (xs ++ ys) D)). cbn [left_buf t_buf].
           rewrite (@free_broken V chk BMalloc t (LVs xs ++ LVs (firstn n vs)) (repeat LN (length vs - n - 1) ++ LVs ys ++ repeat LN k') (length (xs ++ ys))); [reflexivity| | |].
           ++ eapply mem_cast; [exact Mt|]. rewrite <- app_assoc. reflexivity.
           ++ apply Forall_app. split; apply live_LVs.
           ++ rewrite !app_length, !map_length, Lf. lia.
        -- destruct (Z.eqb_spec (Z.of_nat (length xs)) (Z.of_nat (length xs + length ys))) as [Eq|Ne]; cbn [andb].
           ++ assert (ys = []) by (destruct ys; auto; simpl in Eq; lia). subst ys.
              destruct (Nat.eqb_spec n 0) as [->|Nn].
              ** cbn. apply IN. rewrite app_nil_r. exists (Datatypes.S (length vs - 0 - 1 + k')). eapply mem_cast; [exact Mt|].
                 simpl. rewrite repeat_app_add. reflexivity.
              ** cbn. rewrite (t_dtor_eq chk _ _ _ (size1 a t (xs ++ []) D)). cbn [left_buf t_buf].
                 destruct (firstn n vs) as [|x fs] eqn:EF; [simpl in Lf; lia|].
                 replace (length (xs ++ [])) with (length (LVs xs)) by (rewrite app_nil_r, map_length; auto).
                 rewrite (@free_leaks V chk t (LVs xs) [] x (LVs fs ++ LN :: repeat LN (length vs - n - 1) ++ LVs [] ++ repeat LN k')); [reflexivity|exact Mt|apply live_LVs].
           ++ cbn. rewrite (t_dtor_eq chk _ _ _ (size1 a t (xs ++ ys) D)). cbn [left_buf t_buf].
              destruct ys as [|y ys]; [simpl in Ne; lia|].
              assert (EF : firstn n vs = firstn (length (y :: ys)) (firstn n vs) ++ skipn (length (y :: ys)) (firstn n vs)) by (symmetry; apply firstn_skipn).
              set (f1 := firstn (length (y :: ys)) (firstn n vs)) in *. set (f2 := skipn (length (y :: ys)) (firstn n vs)) in *.
              assert (L1 : length f1 = length (y :: ys)) by (unfold f1; rewrite firstn_length, Lf; lia).
              replace (length (xs ++ y :: ys)) with (length (LVs xs ++ LVs f1)) by (rewrite !app_length, !map_length, L1; auto).
              rewrite (@free_leaks V chk t (LVs xs ++ LVs f1) (LVs f2 ++ LN :: repeat LN (length vs - n - 1)) y (LVs ys ++ repeat LN k')); [reflexivity| |].
              ** eapply mem_cast; [exact Mt|]. rewrite EF, map_app, <- !app_assoc. simpl. rewrite <- ?app_assoc. reflexivity.
              ** apply Forall_app. split; apply live_LVs.
    + intros n' [b m] (-> & E). cbn [xspec]. rewrite E. auto.
  - destruct (@vstep_ok V chk false BMalloc dflt VPopBack a l l' A X ltac:(left; auto)) as (a' & E & _).
    cbn [vstep] in E. rewrite E. cbn [xlift xspec]. split; [lia|auto].
  - destruct (@vstep_ok V chk false BMalloc dflt (VErase pos) a l l' A X ltac:(left; auto)) as (a' & E & _).
    cbn [vstep] in E. rewrite E. cbn [xlift xspec]. split; [lia|auto].
  - destruct (Z.leb_spec 0 n0); [|discriminate]. apply RDD; auto.
  - destruct (Z.leb_spec 0 n0); [|discriminate]. apply RDD; auto.
  - destruct (@vstep_ok V chk false BMalloc dflt (VReserve n0) a l l' A X ltac:(left; auto)) as (a' & E & _).
    cbn [vstep] in E. rewrite E. cbn [xlift xspec]. split; [lia|auto].
  - destruct (@vstep_ok V chk false BMalloc dflt VClear a l l' A X ltac:(left; auto)) as (a' & E & _).
    cbn [vstep] in E. rewrite E. cbn [xlift xspec]. split; [lia|auto].
  - destruct ((0 <=? i)%Z && (i <? Z.of_nat (length l))%Z)%bool eqn:B; [|discriminate].
    apply andb_true_iff in B. destruct B as [B1 B2].
    assert (VI : valid_index (a_dims a) [i]) by (rewrite D; apply valid1; lia).
    eapply xspec_mono; [apply (@x_set_spec V chk [0] perm1 nz1 a l [i] v n A VI)| |].
    + intros n' a' Y. exact Y.
    + intros w t (-> & -> & ->). split; auto. split; [lia|]. cbn. exists a. auto.
Qed.

Lemma x_run_spec h : forall a l l' d, arr_ok a l -> fate dflt h l = Some (l', d) ->
  exists t, x_run chk dflt h a = Ok t /\ after chk d t l'.
Proof.
  induction h as [|[n c] h IH]; intros a l l' d A X; cbn [fate x_run] in *.
  - injection X as <- <-. eexists. split; [reflexivity|]. apply after_after. cbn. eauto.
  - destruct (vector dflt c l) as [l1|] eqn:E1; [|discriminate].
    pose proof (x_vstep_spec c n A E1) as S.
    destruct (x_vstep chk false BMalloc [0] dflt n c a) as [n' a'|w t|f]; cbn [xspec] in S; [| |contradiction].
    + destruct S as [-> E]. destruct (Nat.leb_spec (cost c l) (n' + cost c l)); [|lia].
      destruct (@vstep_ok V chk false BMalloc dflt c a l l1 A E1 ltac:(left; auto)) as (a2 & E2 & A2 & _).
      rewrite E in E2. injection E2 as <-. eauto.
    + destruct S as (-> & Ln & Af). destruct (Nat.leb_spec (cost c l) n); [lia|].
      destruct (damage_of c l n).
      * destruct Af as (a2 & -> & A2). rewrite (dtor_left _ A2), resume_left. eauto.
      * injection X as <- <-. pose proof Af as Af'. cbn in Af'. rewrite Af'. eexists. split; [reflexivity|]. exact Af.
      * injection X as <- <-. pose proof Af as Af'. cbn in Af'. rewrite Af'. eexists. split; [reflexivity|]. exact Af.
Qed.

End X1.

Section Copies.
Variable V : Type.
Variable chk : bool.
Variable perm : list nat.
Variable dflt : V.
Notation LVs := (map (@LV V)).
Notation arr_ok := (@arr_ok V false perm).
Notation holds := (@BufferManipProofs.holds V false).

Lemma free_leaks_holds b (zs : list V) m : holds b zs -> m < length zs -> free chk false BMalloc b m = Fault FLeak.
Proof.
  intros H L. destruct (split_nth zs L) as (p & x & s & -> & <-). destruct H as (k & M).
  rewrite map_app, <- app_assoc in M. simpl in M.
  replace (length p) with (length (LVs p)) by apply map_length.
  apply (@free_leaks V chk b (LVs p) [] x (LVs s ++ repeat LN k)); [exact M|apply live_LVs].
Qed.

Lemma x_copy_assign_spec a src vs ws n : arr_ok a vs -> arr_ok src ws ->
  xspec (x_copy_assign chk false BMalloc perm dflt n a src)
    (fun n' a' => n = n' + (length ws - length vs) + length ws /\ arr_ok a' ws /\ a_dims a' = a_dims src /\
       (b <- copyInto chk false BMalloc (a_buf a) (size a) (a_buf src) (size src) dflt ;;
        Ok (mkArray (a_dims src) (a_strides src) (a_rix src) b)) = Ok a')
    (fun w t => w = Element /\ n < (length ws - length vs) + length ws /\
       (length ws < length vs -> t_dtor chk false BMalloc t = Fault FDestroy) /\
       (length ws = length vs -> exists a2, t = as_left a2 /\ a_dims a2 = a_dims a /\ arr_ok a2 (firstn n ws ++ skipn n vs)) /\
       (length vs < length ws -> n = 0 -> exists a2, t = as_left a2 /\ a_dims a2 = a_dims a /\ arr_ok a2 vs) /\
       (length vs < length ws -> n <> 0 -> t_dtor chk false BMalloc t = Fault FLeak)).
Proof.
  intros A B. unfold x_copy_assign. rewrite (size_ok A), (size_ok B).
  destruct A as (LA & SA & RA & LVA & HA). destruct B as (LB & SB & RB & LVB & HB).
  pose proof (@copyInto_ok V chk false BMalloc (a_buf a) (a_buf src) vs ws dflt HA HB ltac:(left; auto)) as (bf & Ef & Hf & Lf).
  assert (DT : forall t, t_dtor chk false BMalloc (left_buf a t) = (_ <- free chk false BMalloc t (length vs) ;; Ok tt)).
  { intros t. rewrite (t_dtor_eq chk _ _ (length vs)); auto. unfold t_size, left_buf. cbn. rewrite z_prod, LVA. auto. }
  assert (IN : forall t zs, length zs = length vs -> holds t zs ->
    exists a2, left_buf a t = as_left a2 /\ a_dims a2 = a_dims a /\ arr_ok a2 zs).
  { intros t zs Lz Hz. exists (mkArray (a_dims a) (a_strides a) (a_rix a) t). split; [reflexivity|]. split; [reflexivity|].
    unfold ArrayProofs.arr_ok. cbn. rewrite Lz. auto. }
  eapply xspec_bind.
  - apply xspec_left. eapply xspec_mono; [apply (x_copyInto_spec chk dflt n HA HB); left; auto| |].
    + intros n' b Y. exact Y.
    + cbn beta. intros w t (-> & [(Ln & Ht & _)|(j & -> & Lj & Lt & Lt2 & Ht)]).
      * split; auto. split; [lia|]. split; [lia|]. split; [lia|]. split.
        -- intros _ ->. apply IN; auto. simpl in Ht. rewrite app_nil_r in Ht. exact Ht.
        -- intros _ Hn. rewrite DT. rewrite (@free_leaks_holds t (vs ++ repeat dflt n) (length vs) Ht); auto.
           rewrite app_length, repeat_length. lia.
      * split; auto. split; [lia|]. split; [|split; [|split]].
        -- intros Lw. rewrite DT. rewrite (@free_broken_holds V chk BMalloc t _ (length vs) Ht); auto.
           rewrite app_length, skipn_length, app_length, !firstn_length, repeat_length. lia.
        -- intros Lw. rewrite Lw, Nat.sub_diag in *. simpl repeat in Ht. rewrite app_nil_r in Ht.
           rewrite firstn_all in Ht. simpl. apply IN; auto.
           rewrite app_length, skipn_length, firstn_length. lia.
        -- intros Lw Hz. lia.
        -- intros Lw _. rewrite DT. rewrite (@free_leaks_holds t _ (length vs) Ht); auto.
           rewrite app_length, skipn_length, app_length, !firstn_length, repeat_length. lia.
  - intros n' b (-> & E). rewrite Ef in E. injection E as <-. rewrite error_if_ok.
    + cbn. rewrite Ef. cbn. split; [lia|]. split; [|auto]. unfold ArrayProofs.arr_ok. cbn. auto.
    + apply negb_false_iff, Nat.ltb_lt. auto.
Qed.
End Copies.

(** * Errors thrown by the handler *)
Section Errors.
Variable V : Type.
Variable chk triv : bool.
Variable dflt : V.
Notation LVs := (map (@LV V)).

(** One dimension: nothing has been changed when an argument is rejected. *)
Lemma x_error1 c a l n : chk = true -> ArrayProofs.arr_ok triv [0] a l -> vector dflt c l = None -> c <> VPopBack ->
  x_vstep chk triv BMalloc [0] dflt n c a = XThrow Error (as_left a).
Proof.
  intros K A X NP. pose proof (@vstep_abort V chk triv BMalloc dflt c a l K A X NP) as AB.
  pose proof (size_ok A) as SZ. pose proof A as A0. apply arr1 in A0. destruct A0 as (D & S & R & H).
  pose proof (holds_cap H) as HC.
  assert (CI : forall pos, ((0 <=? pos)%Z && (pos <=? Z.of_nat (length l))%Z)%bool = false ->
     checkInsert chk (a_buf a) (length l) pos = Abort).
  { intros pos B. unfold checkInsert. rewrite check_ok by auto. rewrite K. cbn [bind]. unfold check_if.
    destruct (Z.ltb_spec pos 0); cbn; auto. destruct (Z.ltb_spec (Z.of_nat (length l)) pos); cbn; auto.
    apply andb_false_iff in B. destruct B as [B|B]; [apply Z.leb_gt in B|apply Z.leb_gt in B]; lia. }
  destruct c; cbn [x_vstep vstep vector] in *; try discriminate.
  - destruct ((0 <=? pos)%Z && (pos <=? Z.of_nat (length l))%Z)%bool eqn:B; [discriminate|].
    unfold x_emplace_at, x_emplace. rewrite SZ, CI by auto. reflexivity.
  - destruct ((0 <=? pos)%Z && (pos <=? Z.of_nat (length l))%Z)%bool eqn:B; [discriminate|].
    unfold x_insert_at, x_insert. rewrite SZ, CI by auto. reflexivity.
  - congruence.
  - rewrite AB. reflexivity.
  - destruct (Z.leb_spec 0 n0); [discriminate|]. unfold x_resizeDefaultDimension.
    replace (n0 <? 0)%Z with true by (symmetry; apply Z.ltb_lt; lia). reflexivity.
  - destruct (Z.leb_spec 0 n0); [discriminate|]. unfold x_resizeDefaultDimension.
    replace (n0 <? 0)%Z with true by (symmetry; apply Z.ltb_lt; lia). reflexivity.
  - unfold x_set. unfold set_ in AB.
    destruct (slice_call chk (toSlice [0] a) [i]) as [k| |] eqn:E1; cbn [xlift xbind bind] in *; auto; [|discriminate].
    destruct (to_ix k) as [j| |] eqn:E2; cbn [xlift xbind bind] in *; auto; [|discriminate].
    unfold assign, store, aget, aset in AB. destruct (nth_error (a_buf a) j) as [c|]; [|discriminate]. cbn [bind] in AB.
    exfalso. destruct c; [destruct triv; [|discriminate]| |];
      destruct (j <? length (a_buf a)); discriminate.
Qed.

(** A fixed buffer: the new size has been stored when the buffer refuses it. *)
Lemma x_error_stack L a l m v n : ArrayProofs.arr_ok triv [0] a l -> length (a_buf a) = L -> L < m ->
  x_resizeDefaultDimension chk triv (BStack L) [0] n a (Z.of_nat m) v = XThrow Error (@mkT V [Z.of_nat m] [1] 0 (a_buf a)).
Proof.
  intros A Lb Hm. pose proof (size_ok A) as SZ. apply arr1 in A. destruct A as (D & S & R & H).
  pose proof (holds_cap H) as HC. unfold x_resizeDefaultDimension.
  rewrite error_if_ok by (apply Z.ltb_ge; lia). cbn [xlift xbind length Nat.eqb orb]. rewrite Nat2Z.id, D, R, SZ. cbn [upd].
  rewrite multiplyAll_prod. replace (prod [m]) with m by (simpl; lia).
  unfold x_resize. rewrite check_ok by auto. cbn [xlift xbind]. unfold BufferManip.reserve. rewrite check_ok by auto. cbn [bind].
  unfold BufferManip.capacity. rewrite Lb. destruct (Nat.ltb_spec L m); [|lia]. unfold BufferManip.setCapacity. rewrite check_ok by auto. cbn [bind].
  unfold BufferManip.reallocate. destruct (Nat.ltb_spec L m); [|lia]. cbn [error_if bind xlift xbind xleft].
  unfold left_shape. cbn. rewrite R. reflexivity.
Qed.
End Errors.

Section ErrorsN.
Variable V : Type.
Variable chk : bool.
Variable perm : list nat.
Variable dflt : V.

Lemma x_set_dims_error n ps : forall dims, forallb (fun p => 0 <=? snd p)%Z ps = false ->
  exists dz, x_set_dims n dims ps = XThrow Error dz /\ length dz = length dims /\
    (Forall (fun p => fst p < length dims) ps -> (fold_right Z.mul 1 dz <= 0)%Z).
Proof.
  induction ps as [|[i d] ps IH]; intros dims B; cbn in *; [discriminate|].
  destruct (Z.ltb_spec d 0) as [Neg|Pos].
  - eexists. split; [reflexivity|]. split; [rewrite upd_length, map_length; auto|].
    intros F. inversion F; subst. cbn in *. clear -Neg H1. revert i H1. induction dims as [|x dims IH]; intros i Hi; [simpl in Hi; lia|].
    destruct i as [|i]; cbn.
    + pose proof (z_prod dims). rewrite H. nia.
    + simpl in Hi. specialize (IH i ltac:(lia)). nia.
  - destruct (Z.leb_spec 0 d); [|lia]. cbn in B. destruct (IH (upd dims i (Z.to_nat d)) B) as (dz & E & Lz & Nz).
    exists dz. rewrite upd_length in *. split; auto. split; auto. intros F. inversion F; auto.
Qed.

(** The elements are lost: the stored extents have a product of at most 0, the buffer is unchanged. *)
Lemma x_reshape_error a vs ps n : ArrayProofs.arr_ok false perm a vs ->
  Forall (fun p => fst p < length perm) ps -> forallb (fun p => 0 <=? snd p)%Z ps = false ->
  exists t, x_reshape chk false BMalloc perm dflt n a ps = XThrow Error t /\ (t_size t <= 0)%Z /\ t_buf t = a_buf a /\
    t_dtor false false BMalloc t = (if length vs =? 0 then Ok tt else Fault FLeak).
Proof.
  intros A F B. pose proof A as (L & _ & _ & _ & H).
  destruct (x_set_dims_error n ps (a_dims a) B) as (dz & E & Lz & Nz). rewrite L in Nz. specialize (Nz F).
  unfold x_reshape. rewrite E. cbn [xleft xbind]. eexists. split; [reflexivity|]. split; [exact Nz|]. split; [reflexivity|].
  unfold t_dtor. cbn [check_if andb bind t_buf]. unfold t_size. cbn [t_dims].
  replace (Z.to_nat (fold_right Z.mul 1%Z dz)) with 0 by lia.
  destruct vs as [|v vs]; cbn [length Nat.eqb].
  - destruct (free_ok false BMalloc H) as (b & Eb & _). cbn [length] in Eb. rewrite Eb. auto.
  - rewrite (@free_leaks_holds V false (a_buf a) (v :: vs) 0 H); [auto|simpl; lia].
Qed.
End ErrorsN.
